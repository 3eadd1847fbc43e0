(** C44, C66: gradient descent; C67: directional derivatives from one
    accumulation. *)
From Coq Require Import Reals List Bool ZArith Lra Lia.
From Coquelicot Require Import Coquelicot.
From Verif Require Import Res InterpModel InterpProofs RList AdModel AdSpec AdProofs AdGradient AdProps GdModel.
Import ListNotations.
Open Scope R_scope.

(** ** One accumulation gives every directional derivative *)

Lemma exec_leaves (xs : list R) : exec ([], []) (map ILeaf xs) =
  Ret (map (fun i => Vertex 0 0 i i) (seq 0 (length xs)), map (fun i => Var (nth i xs 0) i) (seq 0 (length xs))).
Proof.
  induction xs as [|x xs IH] using rev_ind; [reflexivity|].
  rewrite map_app, exec_app.
  transitivity (bind (Ret (map (fun i => Vertex 0 0 i i) (seq 0 (length xs)), map (fun i => Var (nth i xs 0) i) (seq 0 (length xs)))) (fun st' => exec st' (map ILeaf [x]))).
  { f_equal. exact IH. }
  cbn [bind map exec exec_instr].
  unfold graph_var, push_nullary. cbn [fst snd bind]. rewrite app_length. simpl (length [x]). rewrite Nat.add_1_r, seq_S, !map_app. cbn [map Nat.add].
  rewrite map_length, seq_length. f_equal. f_equal. f_equal.
  - apply map_ext_in. intros i Hi. apply in_seq in Hi. rewrite app_nth1 by lia. reflexivity.
  - rewrite app_nth2, Nat.sub_diag by lia. reflexivity.
Qed.

Lemma sem_leaves (xs : list R) : sem (map ILeaf xs) = xs.
Proof.
  induction xs as [|x xs IH] using rev_ind; [reflexivity|].
  rewrite map_app, sem_app, IH. reflexivity.
Qed.

Definition dotl (a b : list R) : R := rsum (map (fun i => nth i a 0 * nth i b 0) (seq 0 (length a))).
Definition line (x : list R) (t : R) (u : list R) : list R := map (fun i => nth i x 0 + t * nth i u 0) (seq 0 (length x)).
Definition fval (body : list instr) (x : list R) : R := nth (length x + length body - 1) (sem (map ILeaf x ++ body)) 0.

Lemma dot_rsum (s : nat -> R) l : dot s l = rsum (map (fun i => s i * nth i l 0) (seq 0 (length l))).
Proof.
  revert s; induction l as [|a l IH]; intros s; simpl; [reflexivity|]. rewrite IH, <- seq_shift, map_map. unfold rsum. simpl. ring.
Qed.
Lemma rsum_seq_zero (f : nat -> R) n m : (n <= m)%nat -> (forall i, (n <= i)%nat -> f i = 0) ->
  rsum (map f (seq 0 m)) = rsum (map f (seq 0 n)).
Proof.
  intros Hnm H. replace m with (n + (m - n))%nat by lia. rewrite seq_app, map_app, rsum_app.
  rewrite (rsum_map_ext f (fun _ => 0) (seq (0 + n) (m - n))); [rewrite rsum_map_const; lra|]. intros i Hi. apply in_seq in Hi. apply H. lia.
Qed.

Lemma wrt_all_spec adj vs : (forall v, In v vs -> (index v < length adj)%nat) ->
  wrt_all adj vs = Ret (map (fun v => nth (index v) adj 0) vs).
Proof.
  induction vs as [|v vs IH]; intros H; simpl; [reflexivity|].
  unfold wrt. rewrite get_at_spec by (apply H; left; reflexivity). cbn [bind]. rewrite IH by (intros; apply H; right; assumption). reflexivity.
Qed.

Theorem ad_directional : forall body x, let p := map ILeaf x ++ body in
  well_formed p -> in_domain p -> (forall i, In i p -> faulty i = false) -> (0 < length p)%nat ->
  exists g, ad_objective body x = Ret (fval body x, g) /\ length g = length x /\
    (forall u, length u = length x -> is_derive (fun t => fval body (line x t u)) 0 (dotl u g)) /\
    (forall j, (j < length x)%nat -> gradient p (length p - 1) j = Ret (nth j g 0)).
Proof.
  intros body x p Hwf Hdom Hfl Hp.
  set (n := length x). set (g0 := map (fun i => Vertex 0 0 i i) (seq 0 n)). set (vs0 := map (fun i => Var (nth i x 0) i) (seq 0 n)).
  assert (E0 : exec ([], []) (map ILeaf x) = Ret (g0, vs0)) by apply exec_leaves.
  assert (Lp : length p = (n + length body)%nat) by (unfold p; rewrite app_length, map_length; reflexivity).
  assert (W0 : tape_wf g0).
  { intros i v Hv. unfold g0 in Hv. assert (Hi : (i < n)%nat). { assert (H : (i < length g0)%nat) by (apply nth_error_Some; unfold g0; congruence). unfold g0 in H. rewrite map_length, seq_length in H. exact H. }
    rewrite nth_error_map, (nth_error_nth' _ 0%nat) in Hv by (rewrite seq_length; exact Hi). rewrite seq_nth in Hv by exact Hi. injection Hv as <-.
    split; right; split; reflexivity. }
  assert (I0 : vars_in g0 vs0).
  { intros v Hv. unfold vs0 in Hv. apply in_map_iff in Hv as (i & <- & Hi). apply in_seq in Hi. unfold g0. rewrite map_length, seq_length. simpl. lia. }
  assert (Lg0 : length g0 = n) by (unfold g0; rewrite map_length, seq_length; reflexivity).
  assert (Lvs0 : length vs0 = n) by (unfold vs0; rewrite map_length, seq_length; reflexivity).
  assert (Hwfb : wf_from n body).
  { assert (H : wf_from 0 p) by exact Hwf. unfold p in H. apply wf_from_app in H as [_ H]. rewrite map_length in H. exact H. }
  destruct (exec_spec body g0 vs0 W0 I0) as (g1 & vs1 & E1 & W1 & I1 & Lg1 & N1 & M1 & P1).
  { rewrite Lvs0. exact Hwfb. }
  assert (Ex : exec ([], []) p = Ret (g1, vs1)).
  { unfold p. rewrite exec_app. transitivity (bind (Ret (g0, vs0)) (fun st => exec st body)); [f_equal; exact E0|exact E1]. }
  rewrite Lvs0 in N1.
  destruct (nth_error vs1 (n + length body - 1)) as [out|] eqn:Eo; [|apply nth_error_None in Eo; lia].
  assert (Io : (index out < length g1)%nat) by (apply I1; eapply nth_error_In; exact Eo).
  destruct (accumulate_total g1 out W1 Io) as (adj & Ea & La).
  set (g := map (fun i => nth i adj 0) (seq 0 n)).
  assert (Lg : length g = n) by (unfold g; rewrite map_length, seq_length; reflexivity).
  assert (Ng : forall j, (j < n)%nat -> nth j g 0 = nth j adj 0).
  { intros j Hj. unfold g. rewrite (nth_indep _ 0 ((fun i => nth i adj 0) 0%nat)) by (rewrite map_length, seq_length; exact Hj).
    rewrite (map_nth (fun i => nth i adj 0)), seq_nth by exact Hj. reflexivity. }
  assert (Fv : fval body x = value out).
  { unfold fval. fold n. rewrite sem_app, sem_leaves. 
    assert (M0 : map value vs0 = x).
    { unfold vs0. rewrite map_map. simpl. unfold n. clear. induction x as [|a x IH]; [reflexivity|]. simpl. f_equal. rewrite <- seq_shift, map_map. exact IH. }
    rewrite M0 in M1. rewrite <- M1. apply at_value. exact Eo. }
  assert (Fn : firstn n vs1 = vs0) by (rewrite <- Lvs0; exact P1).
  exists g. split; [|split; [exact Lg|split]].
  - unfold ad_objective. fold p. rewrite Ex. cbn [bind]. fold n. rewrite Eo. cbn [unwrap bind]. rewrite Ea. cbn [bind].
    rewrite Fn. rewrite wrt_all_spec.
    + cbn [bind]. rewrite Fv. unfold vs0. rewrite map_map. reflexivity.
    + intros v Hv. apply I0 in Hv. lia.
  - intros u Lu.
    set (s := fun i => if Nat.ltb i n then nth i u 0 else 0).
    set (env := fun t => line x t u).
    assert (Ln : forall t, length (env t) = n) by (intros; unfold env, line; rewrite map_length, seq_length; reflexivity).
    assert (Nn : forall t i, (i < n)%nat -> nth i (env t) 0 = nth i x 0 + t * nth i u 0).
    { intros t i Hi. unfold env, line. rewrite (nth_indep _ 0 ((fun i => nth i x 0 + t * nth i u 0) 0%nat)) by (rewrite map_length, seq_length; exact Hi).
      rewrite (map_nth (fun i => nth i x 0 + t * nth i u 0)), seq_nth by exact Hi. reflexivity. }
    assert (Ee : env 0 = x).
    { apply (nth_ext _ _ 0 0); [rewrite Ln; reflexivity|]. intros i Hi. rewrite Ln in Hi. rewrite Nn by exact Hi. lra. }
    assert (St : state_ok s 0 g0 vs0 u env).
    { split; [|split; [|split]].
      - split; [rewrite Lg0; exact Lu|]. split; [exact W0|]. intros i v Hv.
        assert (Hi : (i < n)%nat) by (rewrite <- Lg0; apply nth_error_Some; congruence).
        unfold g0 in Hv. rewrite nth_error_map, (nth_error_nth' _ 0%nat) in Hv by (rewrite seq_length; exact Hi). rewrite seq_nth in Hv by exact Hi.
        injection Hv as <-. cbn [part0 part1]. unfold s. destruct (Nat.ltb_spec i n); [ring|lia].
      - intros i Hi. unfold s. destruct (Nat.ltb_spec i n); [lia|reflexivity].
      - intros t. rewrite Ln, Lvs0. reflexivity.
      - intros k v Hv. assert (Hk : (k < n)%nat) by (rewrite <- Lvs0; apply nth_error_Some; congruence).
        unfold vs0 in Hv. rewrite nth_error_map, (nth_error_nth' _ 0%nat) in Hv by (rewrite seq_length; exact Hk). rewrite seq_nth in Hv by exact Hk.
        injection Hv as <-. split; [cbn [index]; unfold n in Hk; simpl; lia|]. cbn [value index]. split; [rewrite Nn by exact Hk; simpl; lra|].
        eapply is_derive_ext; [intros t; symmetry; apply Nn; exact Hk|]. simpl (0 + k)%nat. auto_derive; [exact I|ring]. }
    destruct (exec_along s 0 body g0 vs0 u env (g1, vs1) St) as (D & HD).
    { rewrite Lvs0. exact Hwfb. }
    { intros i Hi. apply Hfl. unfold p. apply in_or_app. right. exact Hi. }
    { intros i Hi. rewrite Ee. assert (Hs : sem p = sem_from x body) by (unfold p; rewrite sem_app, sem_leaves; reflexivity).
      rewrite <- Hs. apply Hdom. unfold p. apply in_or_app. right. exact Hi. }
    { exact E1. }
    cbn [fst snd] in HD. destruct HD as (Hok & _ & HL & Hv).
    destruct (Hv _ _ Eo) as (_ & _ & Hd).
    destruct (accumulate_spec s g1 D out Hok Io) as (adj' & Ea' & _ & Hdot).
    assert (adj' = adj) by congruence. subst adj'.
    assert (Q : dotl u g = nth (index out) D 0).
    { rewrite <- Hdot, dot_rsum. unfold dotl. rewrite Lu. fold n.
      rewrite (rsum_seq_zero (fun i => s i * nth i adj 0) n (length adj)) by first [lia | intros i Hi; unfold s; destruct (Nat.ltb_spec i n); [lia|ring]].
      apply rsum_map_ext. intros i Hi. apply in_seq in Hi. unfold s. destruct (Nat.ltb_spec i n); [|lia]. rewrite Ng by lia. reflexivity. }
    rewrite Q. eapply is_derive_ext; [|exact Hd]. intros t. simpl. unfold fval. fold (env t). rewrite Ln, sem_app, sem_leaves. reflexivity.
  - intros j Hj. unfold gradient. rewrite Ex. cbn [bind]. rewrite Lp, Eo. cbn [unwrap bind].
    assert (Ej : nth_error vs1 j = Some (Var (nth j x 0) j)).
    { rewrite <- (firstn_skipn n vs1), Fn, nth_error_app1 by (rewrite Lvs0; exact Hj). unfold vs0.
      rewrite nth_error_map, (nth_error_nth' _ 0%nat) by (rewrite seq_length; exact Hj). rewrite seq_nth by exact Hj. reflexivity. }
    rewrite Ej. cbn [unwrap bind]. rewrite Ea. cbn [bind]. unfold wrt. cbn [index]. rewrite get_at_spec by (unfold n in *; lia). rewrite Ng by exact Hj. reflexivity.
Qed.

Print Assumptions ad_directional.

(** ** C44: what the optimiser returns *)

(** the iterates of the documented recursion *)
Fixpoint iterate (F : list R -> list R) (lr : R) (x : list R) (k : nat) : list R :=
  match k with O => x | S k' => iterate F lr (update lr x (F x)) k' end.
Lemma iterate_S F lr k : forall x, iterate F lr x (S k) = update lr (iterate F lr x k) (F (iterate F lr x k)).
Proof. induction k as [|k IH]; intros x; [reflexivity|]. change (iterate F lr x (S (S k))) with (iterate F lr (update lr x (F x)) (S k)). rewrite IH. reflexivity. Qed.

Lemma update_nth lr : forall x g i, length g = length x -> (i < length x)%nat -> nth i (update lr x g) 0 = nth i x 0 - lr * nth i g 0.
Proof.
  induction x as [|a x IH]; intros [|b g] i L Hi; simpl in *; try lia. destruct i; [reflexivity|]. apply IH; lia.
Qed.
Lemma update_length lr : forall x g, length (update lr x g) = length x.
Proof. induction x as [|a x IH]; intros [|b g]; simpl; auto. Qed.

Section run.
  Context (n : nat) (f : list R -> res (R * list R)) (V : list R -> R) (G : list R -> list R).
  Hypothesis Hf : forall x, length x = n -> f x = Ret (V x, G x).

  Lemma gd_loop_spec lr tol left : forall k r, length (minimizer r) = n -> exists m, (m <= left)%nat /\
    gd_loop f lr tol left k r =
      Ret (GdResult (iterate G lr (minimizer r) m)
             (match m with O => minimum r | S m' => V (iterate G lr (minimizer r) m') end)
             (if Nat.ltb m left then k + m + 1 else match m with O => iterations r | _ => k + m end)) /\
    (forall j, (j < m)%nat -> tol <= gd_norm (G (iterate G lr (minimizer r) j))) /\
    ((m < left)%nat -> gd_norm (G (iterate G lr (minimizer r) m)) < tol).
  Proof.
    induction left as [|left IH]; intros k r Hr.
    - exists 0%nat. split; [lia|]. split; [destruct r; reflexivity|]. split; lia.
    - cbn [gd_loop]. rewrite Hf by exact Hr. cbn [bind]. unfold is_stationary. destruct (Rltb_spec (gd_norm (G (minimizer r))) tol) as [H|H].
      + exists 0%nat. split; [lia|]. split; [cbn; f_equal; f_equal; lia|]. split; [lia|]. intros _. exact H.
      + destruct (IH (S k) (GdResult (update lr (minimizer r) (G (minimizer r))) (V (minimizer r)) (S k)) ltac:(cbn [minimizer]; rewrite update_length; exact Hr)) as (m & Hm & E & Hj & Hs).
        cbn [minimizer minimum iterations] in *.
        exists (S m). split; [lia|]. split; [|split].
        * rewrite E. f_equal. f_equal.
          -- destruct m; reflexivity.
          -- change (S m <? S left)%nat with (m <? left)%nat. destruct (m <? left)%nat; [lia|]. destruct m; lia.
        * intros [|j] Hlt; [simpl; lra|]. apply Hj. lia.
        * intros Hlt. apply Hs. lia.
  Qed.
End run.

(** The result: [m] updates of the documented recursion were made, none of them
    at a stationary point; either the budget is used up or the last iterate is
    stationary; the reported minimum is the objective at the iterate BEFORE the
    reported minimizer (0.0 when no update was made). *)
Theorem gd_result_spec : forall c f V G x0, (forall x, length x = length x0 -> f x = Ret (V x, G x)) ->
  exists m, (m <= max_iterations c)%nat /\
    optimize c f x0 = Ret (GdResult (iterate G (learning_rate c) x0 m)
        (match m with O => 0 | S m' => V (iterate G (learning_rate c) x0 m') end)
        (Nat.min (S m) (max_iterations c))) /\
    (forall j, (j < m)%nat -> gd_tol c <= gd_norm (G (iterate G (learning_rate c) x0 j))) /\
    ((m < max_iterations c)%nat -> gd_norm (G (iterate G (learning_rate c) x0 m)) < gd_tol c).
Proof.
  intros c f V G x0 Hf. destruct (gd_loop_spec (length x0) f V G Hf (learning_rate c) (gd_tol c) (max_iterations c) 0 (GdResult x0 0 0) eq_refl) as (m & Hm & E & Hj & Hs).
  cbn [minimizer minimum iterations] in *. exists m. split; [exact Hm|]. split; [|split; assumption].
  unfold optimize. rewrite E. f_equal. f_equal. destruct (Nat.ltb_spec m (max_iterations c)); [lia|]. destruct m; lia.
Qed.
Print Assumptions gd_result_spec.

Theorem gd_iteration : forall G lr x k i, (forall y, length y = length x -> length (G y) = length x) -> (i < length x)%nat ->
  length (iterate G lr x k) = length x /\
  nth i (iterate G lr x (S k)) 0 = nth i (iterate G lr x k) 0 - lr * nth i (G (iterate G lr x k)) 0.
Proof.
  intros G lr x k i HG Hi.
  assert (L : forall k, length (iterate G lr x k) = length x).
  { clear k. induction k as [|k IH]; [reflexivity|]. rewrite iterate_S, update_length. exact IH. }
  split; [apply L|]. rewrite iterate_S. apply update_nth; [rewrite HG by apply L; symmetry; apply L|rewrite L; exact Hi].
Qed.
Print Assumptions gd_iteration.

(** Finding: started at a stationary point the reported minimum is 0.0, whatever
    the objective's value there. *)
Theorem gd_stationary_start_refuted : forall c f v g x0, f x0 = Ret (v, g) -> gd_norm g < gd_tol c -> (0 < max_iterations c)%nat ->
  optimize c f x0 = Ret (GdResult x0 0 1).
Proof.
  intros c f v g x0 Hf Hg Hn. unfold optimize. destruct (max_iterations c); [lia|]. cbn [gd_loop minimizer]. rewrite Hf. cbn [bind].
  unfold is_stationary. destruct (Rltb_spec (gd_norm g) (gd_tol c)); [reflexivity|lra].
Qed.
Print Assumptions gd_stationary_start_refuted.

(** The objective x * x on one variable, as the code differentiates it *)
Definition square_body : list instr := [IBin Mul 0 0].
Lemma square_objective x : ad_objective square_body [x] = Ret (x * x, [2 * x]).
Proof. unfold ad_objective. cbn. f_equal. f_equal. f_equal. ring. Qed.

(** Finding: one step on x^2 from 1 with rate 1/4: the minimizer is 1/2, the
    reported minimum is 1 instead of 1/4. *)
Theorem gd_minimum_not_at_minimizer_refuted : exists c x0 r,
  optimize c (ad_objective square_body) x0 = Ret r /\ minimizer r = [1 / 2] /\ minimum r = 1 /\
  minimum r <> fval square_body (minimizer r).
Proof.
  exists (Gd (1 / 4) 1 (Some (1 / 10))), [1]. eexists. split.
  - unfold optimize. cbn [max_iterations gd_loop minimizer]. rewrite square_objective. cbn [bind]. unfold is_stationary, gd_norm, gd_tol. cbn [tolerance map rsum fold_right].
    destruct (Rltb_spec (sqrt (2 * 1 * (2 * 1) + 0)) (1 / 10)) as [H|H].
    + exfalso. replace (2 * 1 * (2 * 1) + 0) with (2 * 2) in H by ring. rewrite sqrt_square in H; lra.
    + reflexivity.
  - cbn [minimizer minimum update learning_rate]. split; [f_equal; field|]. split; [ring|]. unfold fval. cbn. lra.
Qed.
Print Assumptions gd_minimum_not_at_minimizer_refuted.

(** ** C66: descent and convergence *)

Definition sqn (a : list R) : R := dotl a a.
Lemma sqn_norm a : gd_norm a * gd_norm a = sqn a.
Proof.
  unfold gd_norm. rewrite sqrt_sqrt.
  - unfold sqn, dotl. clear. induction a as [|x a IH]; [reflexivity|]. simpl. rewrite <- seq_shift, map_map. simpl. unfold rsum in *. simpl. rewrite IH. reflexivity.
  - apply rsum_nonneg. intros; nra.
Qed.
Lemma gd_norm_nonneg a : 0 <= gd_norm a. Proof. apply sqrt_pos. Qed.

Definition vsub (a b : list R) : list R := map (fun i => nth i a 0 - nth i b 0) (seq 0 (length a)).
Lemma seqmap_nth (h : nat -> R) n i : (i < n)%nat -> nth i (map h (seq 0 n)) 0 = h i.
Proof. intros Hi. rewrite (nth_indep _ 0 (h 0%nat)) by (rewrite map_length, seq_length; exact Hi). rewrite map_nth, seq_nth by exact Hi. reflexivity. Qed.
Lemma dotl_cs a b : length a = length b -> dotl a b <= gd_norm a * gd_norm b.
Proof.
  intros L. assert (H : dotl a b * dotl a b <= sqn a * sqn b).
  { unfold sqn, dotl. rewrite <- L. apply (cauchy_schwarz (fun i => nth i a 0) (fun i => nth i b 0)). }
  rewrite <- !sqn_norm in H. pose proof (gd_norm_nonneg a). pose proof (gd_norm_nonneg b). 
  assert (0 <= gd_norm a * gd_norm b) by (apply Rmult_le_pos; assumption). apply Rnot_lt_le. intros Hlt. nra.
Qed.

(** [G] is the gradient of [V] on vectors of length n *)
Definition gradient_of (n : nat) (V : list R -> R) (G : list R -> list R) : Prop :=
  (forall x, length x = n -> length (G x) = n) /\
  (forall x u, length x = n -> length u = n -> is_derive (fun t => V (line x t u)) 0 (dotl u (G x))).
Definition lipschitz (n : nat) (L : R) (G : list R -> list R) : Prop :=
  forall x y, length x = n -> length y = n -> gd_norm (vsub (G x) (G y)) <= L * gd_norm (vsub x y).

Lemma line_length x t u : length (line x t u) = length x.
Proof. unfold line. rewrite map_length, seq_length. reflexivity. Qed.
Lemma line_line x t s u : line (line x t u) s u = line x (t + s) u.
Proof.
  unfold line at 1. rewrite line_length. unfold line at 2. apply map_ext_in. intros i Hi. apply in_seq in Hi.
  unfold line. rewrite seqmap_nth by lia. ring.
Qed.
Lemma update_line lr x g : length g = length x -> update lr x g = line x (- lr) g.
Proof.
  intros L. apply (nth_ext _ _ 0 0); [rewrite update_length, line_length; reflexivity|]. intros i Hi. rewrite update_length in Hi.
  rewrite update_nth by assumption. unfold line. rewrite seqmap_nth by exact Hi. ring.
Qed.
Lemma dotl_neg_l u g n : length u = n -> (forall i, nth i u 0 = - nth i g 0) -> length g = n -> dotl u g = - sqn g.
Proof.
  intros Lu H Lg. unfold dotl, sqn, dotl. rewrite Lu, Lg. rewrite (rsum_map_ext _ (fun i => -1 * (nth i g 0 * nth i g 0))); [rewrite rsum_map_scal; ring|].
  intros i _. rewrite H. ring.
Qed.

Theorem descent_step : forall n V G L lr x, gradient_of n V G -> lipschitz n L G -> 0 <= L -> 0 <= lr -> length x = n ->
  V (update lr x (G x)) <= V x - lr * (1 - L * lr / 2) * sqn (G x).
Proof.
  intros n V G L lr x [GL GD] Lip HL Hlr Hx. set (g := G x). assert (Lg : length g = n) by (apply GL, Hx).
  rewrite update_line by (rewrite Lg; symmetry; exact Hx).
  assert (D : forall t, is_derive (fun t => V (line x (- t) g)) t (- dotl g (G (line x (- t) g)))).
  { intros t. pose proof (GD (line x (- t) g) g ltac:(rewrite line_length; exact Hx) Lg) as H.
    replace (- dotl g (G (line x (- t) g))) with (scal (-1) (dotl g (G (line x (- t) g)))) by (unfold scal; simpl; unfold mult; simpl; ring).
    apply is_derive_ext with (fun s => (fun h => V (line (line x (- t) g) h g)) (t - s)).
    - intros s. cbv beta. rewrite line_line. f_equal. f_equal. ring.
    - apply (is_derive_comp (fun h => V (line (line x (- t) g) h g)) (fun s => t - s) t).
      + replace (t - t) with 0 by ring. exact H.
      + auto_derive; [exact I|ring]. }
  assert (B : forall t, 0 <= t -> - dotl g (G (line x (- t) g)) <= - sqn g * (1 - L * t)).
  { intros t Ht. pose proof (Lip x (line x (- t) g) Hx ltac:(rewrite line_length; exact Hx)) as H. fold g in H.
    set (w := vsub g (G (line x (- t) g))) in *.
    assert (Lw : length w = n) by (unfold w, vsub; rewrite map_length, seq_length; exact Lg).
    assert (Lg' : length (G (line x (- t) g)) = n) by (apply GL; rewrite line_length; exact Hx).
    assert (E1 : dotl g w = sqn g - dotl g (G (line x (- t) g))).
    { unfold sqn, dotl. replace (rsum (map (fun i => nth i g 0 * nth i w 0) (seq 0 (length g)))) with
        (rsum (map (fun i => nth i g 0 * nth i g 0 + -1 * (nth i g 0 * nth i (G (line x (- t) g)) 0)) (seq 0 (length g)))).
      - rewrite rsum_map_plus, rsum_map_scal. ring.
      - apply rsum_map_ext. intros i Hi. apply in_seq in Hi. unfold w, vsub. rewrite seqmap_nth by lia. ring. }
    assert (E2 : gd_norm (vsub x (line x (- t) g)) = t * gd_norm g).
    { assert (S : sqn (vsub x (line x (- t) g)) = (t * t) * sqn g).
      { unfold sqn, dotl. unfold vsub at 3. rewrite map_length, seq_length, Lg, Hx, <- rsum_map_scal. apply rsum_map_ext. intros i Hi. apply in_seq in Hi.
        unfold vsub. rewrite !seqmap_nth by lia. unfold line. rewrite seqmap_nth by lia. ring. }
      pose proof (gd_norm_nonneg (vsub x (line x (- t) g))) as P1. pose proof (gd_norm_nonneg g) as P2. rewrite <- !sqn_norm in S.
      assert (P3 : 0 <= t * gd_norm g) by (apply Rmult_le_pos; assumption).
      apply Rsqr_inj; [assumption|assumption|]. unfold Rsqr. rewrite S. ring. }
    rewrite E2 in H. pose proof (dotl_cs g w ltac:(lia)) as C. rewrite E1 in C.
    pose proof (gd_norm_nonneg g) as P. pose proof (Rmult_le_compat_l _ _ _ P H) as C2. rewrite <- (sqn_norm g) in *. nra. }
  set (psi := fun t => V (line x (- t) g) + sqn g * (t - L * t * t / 2)).
  assert (Dp : forall t, is_derive psi t (- dotl g (G (line x (- t) g)) + sqn g * (1 - L * t))).
  { intros t. unfold psi. apply (is_derive_plus (K:=R_AbsRing) (V:=R_NormedModule)); [apply D|]. auto_derive; [exact I|field]. }
  destruct (MVT_gen psi 0 lr (fun t => - dotl g (G (line x (- t) g)) + sqn g * (1 - L * t))) as (c & Hc & E).
  { intros t _. apply Dp. }
  { intros t _. apply continuity_pt_filterlim. apply (ex_derive_continuous psi). eexists. apply Dp. }
  rewrite Rmin_left in Hc by lra. specialize (B c (proj1 Hc)).
  assert (psi lr - psi 0 <= 0) by (rewrite E; assert (- dotl g (G (line x (- c) g)) + sqn g * (1 - L * c) <= 0) by lra; nra).
  unfold psi in H. assert (Z : line x (- 0) g = x).
  { apply (nth_ext _ _ 0 0); [apply line_length|]. intros i Hi. rewrite line_length in Hi. unfold line. rewrite seqmap_nth by exact Hi. ring. }
  rewrite Z in H. nra.
Qed.
Print Assumptions descent_step.

(** The objective never increases along the iterates when the learning rate is at
    most 2 / L. *)
Theorem gd_monotone : forall n V G L lr x k, gradient_of n V G -> lipschitz n L G -> 0 <= L -> 0 <= lr -> L * lr <= 2 -> length x = n ->
  V (iterate G lr x (S k)) <= V (iterate G lr x k).
Proof.
  intros n V G L lr x k HG HL H0 H1 H2 Hx. rewrite iterate_S.
  assert (Lk : length (iterate G lr x k) = n).
  { clear - Hx. induction k as [|k IH]; [exact Hx|]. rewrite iterate_S, update_length. exact IH. }
  pose proof (descent_step n V G L lr _ HG HL H0 H1 Lk) as D.
  assert (0 <= sqn (G (iterate G lr x k))) by (rewrite <- sqn_norm; pose proof (gd_norm_nonneg (G (iterate G lr x k))); nra).
  assert (0 <= lr * (1 - L * lr / 2)) by nra. nra.
Qed.
Print Assumptions gd_monotone.

(** Finding: the documentation promises monotone descent for every step size; on
    x^2 any rate above one increases the objective at every step. *)
Theorem gd_monotone_any_rate_refuted : forall lr x, 1 < lr -> x <> 0 ->
  exists y, update lr [x] [2 * x] = [y] /\ x * x < y * y.
Proof. intros lr x H Hx. exists (x - lr * (2 * x)). split; [reflexivity|].
  assert (0 < x * x) by nra. assert (0 < x * x * (4 * (lr * (lr - 1)))) by (apply Rmult_lt_0_compat; nra). nra. Qed.
Print Assumptions gd_monotone_any_rate_refuted.

(** Convergence: an objective bounded below with Lipschitz gradient is brought to
    a stationary point (gradient norm below the tolerance) whenever the iteration
    budget exceeds (V x0 - b) / (lr (1 - L lr / 2) tol^2). *)
Theorem gd_converges : forall c f n V G L b x0,
  length x0 = n -> (forall x, length x = n -> f x = Ret (V x, G x)) ->
  gradient_of n V G -> lipschitz n L G -> 0 <= L -> 0 < learning_rate c -> L * learning_rate c < 2 ->
  0 < gd_tol c -> (forall x, length x = n -> b <= V x) ->
  V x0 - b < INR (max_iterations c) * (learning_rate c * (1 - L * learning_rate c / 2) * (gd_tol c * gd_tol c)) ->
  exists r, optimize c f x0 = Ret r /\ gd_norm (G (minimizer r)) < gd_tol c /\ length (minimizer r) = n /\
    (iterations r <= max_iterations c)%nat /\ V (minimizer r) <= V x0.
Proof.
  intros c f n V G L b x0 Hx Hf HG HL H0 H1 H2 Ht Hb Hbud. subst n.
  set (lr := learning_rate c) in *. set (tol := gd_tol c) in *.
  destruct (gd_result_spec c f V G x0 Hf) as (m & Hm & E & Hj & Hs). fold lr tol in E, Hj, Hs.
  assert (Ln : forall k, length (iterate G lr x0 k) = length x0).
  { induction k as [|k IH]; [reflexivity|]. rewrite iterate_S, update_length. exact IH. }
  set (q := lr * (1 - L * lr / 2)) in *. assert (Hq : 0 < q) by (unfold q; nra).
  assert (T : forall k, (k <= m)%nat -> V (iterate G lr x0 k) <= V x0 - INR k * (q * (tol * tol))).
  { induction k as [|k IH]; intros Hk; [simpl; lra|]. rewrite S_INR, iterate_S.
    pose proof (descent_step (length x0) V G L lr (iterate G lr x0 k) HG HL H0 (Rlt_le _ _ H1) (Ln k)) as D. fold q in D.
    assert (tol * tol <= sqn (G (iterate G lr x0 k))).
    { rewrite <- sqn_norm. assert (tol <= gd_norm (G (iterate G lr x0 k))) by (apply Hj; lia). nra. }
    specialize (IH ltac:(lia)). nra. }
  assert (Hlt : (m < max_iterations c)%nat).
  { destruct (Nat.lt_ge_cases m (max_iterations c)) as [|Hge]; [assumption|exfalso]. assert (m = max_iterations c) by lia.
    specialize (T m (le_n m)). specialize (Hb _ (Ln m)). rewrite H in T, Hb. lra. }
  eexists. split; [exact E|]. cbn [minimizer iterations]. split; [apply Hs, Hlt|]. split; [apply Ln|]. split; [lia|].
  specialize (T m (le_n m)). pose proof (pos_INR m). assert (0 <= INR m * (q * (tol * tol))) by (apply Rmult_le_pos; [assumption|nra]). lra.
Qed.
Print Assumptions gd_converges.

(** The same for objectives differentiated by the library: programs whose
    operations are everywhere in their domain. *)
Definition ad_grad (body : list instr) (x : list R) : list R := match ad_objective body x with Ret (_, g) => g | _ => [] end.
Definition smooth_program (n : nat) (body : list instr) : Prop :=
  (0 < n + length body)%nat /\
  forall x, length x = n -> well_formed (map ILeaf x ++ body) /\ in_domain (map ILeaf x ++ body) /\
    forall i, In i (map ILeaf x ++ body) -> faulty i = false.
Theorem ad_objective_gradient_of : forall n body, smooth_program n body ->
  gradient_of n (fval body) (ad_grad body) /\
  forall x, length x = n -> ad_objective body x = Ret (fval body x, ad_grad body x).
Proof.
  intros n body [Hn H].
  assert (P : forall x, length x = n -> exists g, ad_objective body x = Ret (fval body x, g) /\ length g = n /\
     forall u, length u = n -> is_derive (fun t => fval body (line x t u)) 0 (dotl u g)).
  { intros x Hx. destruct (H x Hx) as (W & D & F). destruct (ad_directional body x W D F) as (g & E & Lg & Hd & _).
    { rewrite app_length, map_length. lia. }
    exists g. split; [exact E|]. rewrite <- Hx. split; assumption. }
  split; [split|].
  - intros x Hx. destruct (P x Hx) as (g & E & Lg & _). unfold ad_grad. rewrite E. exact Lg.
  - intros x u Hx Hu. destruct (P x Hx) as (g & E & Lg & D). unfold ad_grad. rewrite E. apply D, Hu.
  - intros x Hx. destruct (P x Hx) as (g & E & _). unfold ad_grad. rewrite E. reflexivity.
Qed.
Print Assumptions ad_objective_gradient_of.
Corollary gd_ad_converges : forall c n body L b x0,
  smooth_program n body -> length x0 = n -> lipschitz n L (ad_grad body) -> 0 <= L ->
  0 < learning_rate c -> L * learning_rate c < 2 -> 0 < gd_tol c -> (forall x, length x = n -> b <= fval body x) ->
  fval body x0 - b < INR (max_iterations c) * (learning_rate c * (1 - L * learning_rate c / 2) * (gd_tol c * gd_tol c)) ->
  exists r, optimize c (ad_objective body) x0 = Ret r /\ gd_norm (ad_grad body (minimizer r)) < gd_tol c /\
    (iterations r <= max_iterations c)%nat /\ fval body (minimizer r) <= fval body x0.
Proof.
  intros c n body L b x0 Hs Hx HL H0 H1 H2 Ht Hb Hbud. destruct (ad_objective_gradient_of n body Hs) as [HG Hf].
  destruct (gd_converges c (ad_objective body) n (fval body) (ad_grad body) L b x0 Hx Hf HG HL H0 H1 H2 Ht Hb Hbud) as (r & E & A & _ & B & C).
  exists r. repeat split; assumption.
Qed.
Print Assumptions gd_ad_converges.

(** Non-vacuity: x^2 meets every hypothesis, with L = 2 and b = 0. *)
Lemma square_smooth : smooth_program 1 square_body.
Proof.
  split; [simpl; lia|]. intros [|a [|]] Hx; simpl in Hx; try lia. simpl. split; [|split].
  - intros [|[|k]] i Hk; simpl in Hk; [injection Hk as <-; split; [exact I|intros ? []]|injection Hk as <-; split; [exact I|]|destruct k; discriminate].
    intros b [<-|[<-|[]]]; lia.
  - intros i [<-|[<-|[]]]; simpl; exact I.
  - intros i [<-|[<-|[]]]; reflexivity.
Qed.
Lemma square_grad x : ad_grad square_body [x] = [2 * x].
Proof. unfold ad_grad. rewrite square_objective. reflexivity. Qed.
Lemma square_lipschitz : lipschitz 1 2 (ad_grad square_body).
Proof.
  intros [|a [|]] [|b [|]] Hx Hy; simpl in Hx, Hy; try lia. rewrite !square_grad. unfold vsub, gd_norm. simpl.
  replace ((2 * a - 2 * b) * (2 * a - 2 * b) + 0) with (Rsqr (2 * (a - b))) by (unfold Rsqr; ring).
  replace ((a - b) * (a - b) + 0) with (Rsqr (a - b)) by (unfold Rsqr; ring).
  rewrite !sqrt_Rsqr_abs, Rabs_mult, (Rabs_pos_eq 2) by lra. lra.
Qed.
Example gd_square_converges : exists r, optimize (Gd (1 / 2) 401 (Some (1 / 10))) (ad_objective square_body) [1] = Ret r /\
  gd_norm (ad_grad square_body (minimizer r)) < 1 / 10.
Proof.
  destruct (gd_ad_converges (Gd (1 / 2) 401 (Some (1 / 10))) 1 square_body 2 0 [1]) as (r & E & A & _).
  - exact square_smooth.
  - reflexivity.
  - exact square_lipschitz.
  - lra.
  - simpl. lra.
  - simpl. lra.
  - unfold gd_tol. simpl. lra.
  - intros [|a [|]] Hx; simpl in Hx; try lia. unfold fval. simpl. nra.
  - unfold fval, gd_tol. cbn [max_iterations learning_rate tolerance]. simpl (nth _ _ _). replace (INR 401) with 401 by (rewrite INR_IZR_INZ; reflexivity). cbn. lra.
  - exists r. split; assumption.
Qed.

(** the default tolerance: a run that stops before its budget is spent has a
    squared gradient below the machine epsilon 2^-52 *)
Corollary gd_default_tolerance : forall c f V G x0, (forall x, length x = length x0 -> f x = Ret (V x, G x)) -> tolerance c = None ->
  exists r, optimize c f x0 = Ret r /\ ((iterations r < max_iterations c)%nat -> rsum (map (fun g => g ^ 2) (G (minimizer r))) < / 4503599627370496).
Proof.
  intros c f V G x0 Hf T. destruct (gd_result_spec c f V G x0 Hf) as (m & Hm & E & _ & Hs). eexists. split; [exact E|].
  cbn [iterations minimizer]. intros L. assert (M : (m < max_iterations c)%nat) by lia. specialize (Hs M).
  unfold gd_norm, gd_tol in Hs. rewrite T in Hs. apply sqrt_lt_0_alt in Hs. replace (/ 4503599627370496) with (/ 2 ^ 52) by (f_equal; ring). 
  eapply Rle_lt_trans; [|exact Hs]. right. f_equal. apply map_ext. intros. ring.
Qed.
Print Assumptions gd_default_tolerance.
