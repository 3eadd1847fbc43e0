(** The gradient theorem for the automatic differentiation model. *)
From Coq Require Import Reals List ZArith Lia Lra.
From Coquelicot Require Import Coquelicot.
From Verif Require Import Res SpecialFns AdModel AdSpec AdProofs.
Import ListNotations.
Open Scope R_scope.

Section Along.
Variable s : nat -> R.
Variable x0 : R.
Let tok := tape_ok s.
Let fs := fresh_seed s.
Let vok_ := var_ok x0.
Let sok := step_ok s x0.

Lemma un_step o g D x V :
  tok g D -> fs g -> vok_ V D x -> faulty (IUn o 0) = false -> dom_un o (value x) ->
  sok g D (un_v o g x) (fun t => sem_un o (V t)).
Proof.
  intros Hok Hs Hx Hf Hd. pose proof (un_partial_ok o (value x) Hd) as HD.
  destruct o; try discriminate Hf;
    try (apply (mk1_fun_ok s x0); [assumption|assumption|assumption|reflexivity|exact HD]).
  - (* Neg *) apply (mk2_fun_ok s x0 g D x _ _ _ (sem_un Neg)); try assumption; [simpl; ring|].
    eapply is_derive_eq; [exact HD|simpl; ring].
  - (* Asin *) apply (mk1_fun_ok s x0 g D x _ _ (sem_un Asin)); try assumption; [reflexivity|].
    simpl in Hd. destruct (Rlt_dec (-1) (value x)); [|lra].
    destruct (Rlt_dec (value x) 1); [exact HD|lra].
Qed.

Lemma bin_step_mk2 g D x y V W val p q (f : R -> R -> R) :
  tok g D -> fs g -> vok_ V D x -> vok_ W D y ->
  f (value x) (value y) = val ->
  (forall dV dW, is_derive V x0 dV -> is_derive W x0 dW ->
     is_derive (fun t => f (V t) (W t)) x0 (p * dV + q * dW)) ->
  sok g D (mk2 g (index x) (index y) val p q) (fun t => f (V t) (W t)).
Proof.
  intros Hok Hs (Ix & Ex & Hx) (Iy & Ey & Hy) Hv Hd. pose proof (proj1 Hok).
  apply (mk2_ok s x0); try assumption; try lia.
  - rewrite Ex, Ey. assumption.
  - apply Hd; assumption.
Qed.

Lemma d_powf2 (V W : R -> R) (dV dW : R) :
  is_derive V x0 dV -> is_derive W x0 dW -> 0 < V x0 ->
  is_derive (fun t => Rpower (V t) (W t)) x0
    (W x0 * Rpower (V x0) (W x0 - 1) * dV + Rpower (V x0) (W x0) * ln (V x0) * dW).
Proof.
  intros HV HW HP. unfold Rpower at 1.
  eapply is_derive_eq.
  - apply (is_derive_comp exp (fun t => W t * ln (V t))).
    + apply is_derive_exp.
    + apply (is_derive_mult W (fun t => ln (V t))); [exact HW| |intros; apply Rmult_comm].
      apply (is_derive_comp ln V); [apply is_derive_ln; assumption|exact HV].
  - unfold scal, plus, mult; simpl. unfold mult; simpl.
    fold (Rpower (V x0) (W x0)).
    replace (Rpower (V x0) (W x0 - 1)) with (Rpower (V x0) (W x0) * / V x0).
    + field. lra.
    + unfold Rminus. rewrite Rpower_plus, Rpower_Ropp, Rpower_1 by assumption. reflexivity.
Qed.

Lemma add_step g D x y V W :
  tok g D -> fs g -> vok_ V D x -> vok_ W D y ->
  sok g D (add_vv g x y) (fun t => V t + W t).
Proof.
  intros Hok Hs Hx Hy. apply (bin_step_mk2 g D x y V W _ 1 1 Rplus); try assumption; [reflexivity|].
  intros dV dW HV HW. eapply is_derive_eq; [apply (is_derive_plus (K:=R_AbsRing) (V:=R_NormedModule) V W x0 dV dW HV HW)|].
  unfold plus; simpl; ring.
Qed.

Lemma mul_step g D x y V W :
  tok g D -> fs g -> vok_ V D x -> vok_ W D y ->
  sok g D (mul_vv g x y) (fun t => V t * W t).
Proof.
  intros Hok Hs Hx Hy.
  apply (bin_step_mk2 g D x y V W _ (value y) (value x) Rmult); try assumption; [reflexivity|].
  intros dV dW HV HW. destruct Hx as (_ & Ex & _), Hy as (_ & Ey & _).
  eapply is_derive_eq; [apply (is_derive_mult V W x0 dV dW HV HW); intros; apply Rmult_comm|].
  rewrite <- Ex, <- Ey. unfold plus, mult; simpl; ring.
Qed.

Lemma step_ext g D r W W' : (forall t, W t = W' t) -> sok g D r W -> sok g D r W'.
Proof.
  intros H (E & A & B & (I & V & Hd)). exists E. split; [assumption|]. split; [assumption|].
  split; [assumption|]. split; [rewrite <- H; assumption|].
  eapply is_derive_ext; [exact H|exact Hd].
Qed.

Lemma bin_step o g D x y V W :
  tok g D -> fs g -> vok_ V D x -> vok_ W D y ->
  faulty (IBin o 0 0) = false -> dom_bin o (value x) (value y) ->
  sok g D (bin_v o g x y) (fun t => sem_bin o (V t) (W t)).
Proof.
  intros Hok Hs Hx Hy Hf Hd. destruct o; try discriminate Hf; simpl in Hd |- *.
  - apply add_step; assumption.
  - pose proof (un_step Neg g D y W Hok Hs Hy eq_refl I) as H1. simpl in H1.
    unfold sub_vv. destruct (neg_v g y) as [g1 z].
    eapply step_trans; [exact H1|]. simpl. intros D1 A B C.
    apply (step_ext g1 (D ++ D1) _ (fun t => V t + - W t)); [intros; ring|].
    apply add_step; [exact A|exact B|apply var_ok_weaken; exact Hx|exact C].
  - apply mul_step; assumption.
  - pose proof (un_step Recip g D y W Hok Hs Hy eq_refl Hd) as H1. simpl in H1.
    unfold div_vv. destruct (recip_v g y) as [g1 z].
    eapply step_trans; [exact H1|]. simpl. intros D1 A B C.
    apply (step_ext g1 (D ++ D1) _ (fun t => V t * / W t)); [intros; reflexivity|].
    apply mul_step; [exact A|exact B|apply var_ok_weaken; exact Hx|exact C].
  - apply (bin_step_mk2 g D x y V W _ _ _ Rmin); try assumption; [reflexivity|].
    intros dV dW HV HW. destruct Hx as (_ & Ex & _), Hy as (_ & Ey & _).
    rewrite <- Ex, <- Ey. apply d_min2; try assumption. rewrite Ex, Ey. assumption.
  - apply (bin_step_mk2 g D x y V W _ _ _ Rmax); try assumption; [reflexivity|].
    intros dV dW HV HW. destruct Hx as (_ & Ex & _), Hy as (_ & Ey & _).
    rewrite <- Ex, <- Ey. apply d_max2; try assumption. rewrite Ex, Ey. assumption.
  - apply (bin_step_mk2 g D x y V W _ _ _ Rpower); try assumption; [reflexivity|].
    intros dV dW HV HW. destruct Hx as (_ & Ex & _), Hy as (_ & Ey & _).
    rewrite <- Ex, <- Ey. apply d_powf2; try assumption. rewrite Ex. assumption.
  - apply (bin_step_mk2 g D x y V W _ _ _ Rpower); try assumption; [reflexivity|].
    intros dV dW HV HW. destruct Hx as (_ & Ex & _), Hy as (_ & Ey & _).
    rewrite <- Ex, <- Ey. apply d_powf2; try assumption. rewrite Ex. assumption.
Qed.

Lemma vf_step o g D x V c :
  tok g D -> fs g -> vok_ V D x -> dom_bin (vf_bin o) (value x) c ->
  sok g D (vf_v o g x c) (fun t => sem_bin (vf_bin o) (V t) c).
Proof.
  intros Hok Hs Hx Hd.
  destruct o; simpl in Hd |- *.
  - apply (mk2_fun_ok s x0 g D x _ 1 0 (fun v => v + c)); try assumption; [reflexivity|].
    auto_derive; [trivial|ring].
  - apply (mk2_fun_ok s x0 g D x _ 1 0 (fun v => v - c)); try assumption; [reflexivity|].
    auto_derive; [trivial|ring].
  - apply (mk2_fun_ok s x0 g D x _ c 0 (fun v => v * c)); try assumption; [reflexivity|].
    auto_derive; [trivial|ring].
  - apply (mk2_fun_ok s x0 g D x _ (/ c) 0 (fun v => v / c)); try assumption; [reflexivity|].
    auto_derive; [trivial|]. field. assumption.
  - destruct Hd as (Px & Pc & Nc).
    assert (L : ln c <> 0) by (rewrite <- ln_1; intros E; apply ln_inv in E; lra).
    apply (mk2_fun_ok s x0 g D x _ _ _ (fun v => ln v / ln c)); try assumption; [reflexivity|].
    auto_derive; [assumption|]. field. split; lra.
  - apply (mk2_fun_ok s x0 g D x _ _ _ (fun v => Rmin v c)); try assumption; [reflexivity|].
    eapply is_derive_eq; [apply (d_min2 (fun v => v) (fun _ => c) (value x) 1 0); [apply (is_derive_id (K:=R_AbsRing))|apply (is_derive_const (K:=R_AbsRing) (V:=R_NormedModule) c)|assumption]|].
    ring.
  - apply (mk2_fun_ok s x0 g D x _ _ _ (fun v => Rmax v c)); try assumption; [reflexivity|].
    eapply is_derive_eq; [apply (d_max2 (fun v => v) (fun _ => c) (value x) 1 0); [apply (is_derive_id (K:=R_AbsRing))|apply (is_derive_const (K:=R_AbsRing) (V:=R_NormedModule) c)|assumption]|].
    ring.
  - apply (mk2_fun_ok s x0 g D x _ _ _ (fun v => Rpower v c)); try assumption; [reflexivity|].
    eapply is_derive_eq; [apply d_rpower; assumption|ring].
Qed.

Lemma fv_step o g D x V c :
  tok g D -> fs g -> vok_ V D x -> faulty (IFV o c 0) = false -> dom_bin o c (value x) ->
  sok g D (fv_v o g c x) (fun t => sem_bin o c (V t)).
Proof.
  intros Hok Hs Hx Hf Hd.
  destruct o; try discriminate Hf; simpl in Hd |- *.
  - apply (mk2_fun_ok s x0 g D x _ 1 0 (fun v => c + v)); try assumption; [ring|].
    auto_derive; [trivial|ring].
  - apply (mk2_fun_ok s x0 g D x _ 0 (-1) (fun v => c - v)); try assumption; [ring|].
    auto_derive; [trivial|ring].
  - apply (mk2_fun_ok s x0 g D x _ c 0 (fun v => c * v)); try assumption; [ring|].
    auto_derive; [trivial|ring].
  - apply (mk2_fun_ok s x0 g D x _ _ _ (fun v => c / v)); try assumption; [reflexivity|].
    auto_derive; [assumption|]. field. assumption.
  - destruct Hd as (Pc & Px & Nx).
    assert (L : ln (value x) <> 0) by (rewrite <- ln_1; intros E; apply ln_inv in E; lra).
    apply (mk2_fun_ok s x0 g D x _ _ _ (fun v => ln c / ln v)); try assumption; [reflexivity|].
    auto_derive; [repeat split; assumption|]. field. split; lra.
Qed.

Lemma powi_step g D x V n :
  tok g D -> fs g -> vok_ V D x -> (0 < n)%Z \/ value x <> 0 ->
  sok g D (powi_vi g x n) (fun t => powerRZ (V t) n).
Proof.
  intros Hok Hs Hx Hd. unfold powi_vi.
  apply (mk2_fun_ok s x0 g D x _ _ _ (fun v => powerRZ v n)); try assumption; [reflexivity|].
  eapply is_derive_eq; [apply d_powerRZ; assumption|ring].
Qed.

(** folding an operation over a list of tracked variables *)
Lemma reduce_step op (f : R -> R -> R) :
  (forall g D x y V W, tok g D -> fs g -> vok_ V D x -> vok_ W D y ->
     sok g D (op g x y) (fun t => f (V t) (W t))) ->
  forall l g D acc V, tok g D -> fs g -> vok_ V D acc ->
  forall Ws, Forall2 (fun W v => vok_ W D v) Ws l ->
  sok g D (reduce_from op g acc l) (fun t => fold_left f (map (fun W => W t) Ws) (V t)).
Proof.
  intros Hop l. induction l as [|x l IH]; intros g D acc V Hok Hs Ha Ws HW; simpl.
  - inversion HW; subst. simpl. exists []. rewrite app_nil_r. split; [assumption|]. split; assumption.
  - inversion HW as [|W ? Ws' ? HWx HWl]; subst. simpl.
    pose proof (Hop g D acc x V W Hok Hs Ha HWx) as H1.
    destruct (op g acc x) as [g1 z].
    eapply step_trans; [exact H1|]. simpl. intros D1 A B C.
    apply (IH g1 (D ++ D1) z (fun t => f (V t) (W t))); try assumption.
    clear - HWl. induction HWl; constructor; [apply var_ok_weaken; assumption|assumption].
Qed.

(** ** States along the program *)

Definition state_ok (g : tape) (vs : list var) (D : list R) (env : R -> list R) : Prop :=
  tok g D /\ fs g /\ (forall t, length (env t) = length vs) /\
  forall k v, nth_error vs k = Some v -> vok_ (fun t => nth k (env t) 0) D v.

Lemma state_at g vs D env a v :
  state_ok g vs D env -> nth_error vs a = Some v ->
  vok_ (fun t => at_ (env t) a) D v /\ at_ (env x0) a = value v.
Proof.
  intros (_ & _ & _ & H) E. pose proof (H a v E) as (I & V & Hd). split; [|exact V].
  split; [assumption|]. split; assumption.
Qed.

Lemma state_snoc g vs D env r (W : R -> R) :
  state_ok g vs D env -> sok g D r W ->
  exists D', state_ok (fst r) (vs ++ [snd r]) D' (fun t => env t ++ [W t]).
Proof.
  intros (Hok & Hs & HL & Hv) (E & A & B & C). exists (D ++ E).
  split; [exact A|]. split; [exact B|]. split.
  - intros t. rewrite !app_length, HL. reflexivity.
  - intros k v Hk. destruct (lt_dec k (length vs)) as [H|H].
    + rewrite nth_error_app1 in Hk by assumption.
      destruct (var_ok_weaken x0 _ D E v (Hv k v Hk)) as (I & V & Hd).
      split; [assumption|]. split.
      * rewrite app_nth1 by (rewrite HL; assumption). assumption.
      * eapply is_derive_ext; [|exact Hd]. intros t. simpl.
        rewrite app_nth1 by (rewrite HL; assumption). reflexivity.
    + rewrite nth_error_app2 in Hk by lia.
      destruct (k - length vs)%nat as [|m] eqn:Em; simpl in Hk; [|destruct m; discriminate].
      injection Hk as <-. destruct C as (I & V & Hd). split; [assumption|].
      assert (EQ : forall t, W t = nth k (env t ++ [W t]) 0).
      { intros t. rewrite app_nth2 by (rewrite HL; lia). rewrite HL, Em. reflexivity. }
      split; [rewrite <- EQ; assumption|]. eapply is_derive_ext; [|exact Hd]. intros t. apply EQ.
Qed.

Lemma lookups_inv vs l xs : lookups vs l = Ret xs ->
  Forall2 (fun a v => nth_error vs a = Some v) l xs.
Proof.
  revert xs; induction l as [|a l IH]; intros xs H; simpl in H.
  - injection H as <-. constructor.
  - destruct (nth_error vs a) as [w|] eqn:E; simpl in H; [|discriminate].
    destruct (lookups vs l) as [ys| |] eqn:E2; simpl in H; try discriminate.
    injection H as <-. constructor; [assumption|]. apply IH. reflexivity.
Qed.

Lemma fold_step (is_sum : bool) g vs D env l g' v :
  state_ok g vs D env ->
  bind (lookups vs l) (if is_sum then sum_v g else product_v g) = Ret (g', v) ->
  sok g D (g', v)
    (fun t => if is_sum then fold_right Rplus 0 (map (at_ (env t)) l)
              else fold_right Rmult 1 (map (at_ (env t)) l)).
Proof.
  intros Hst H. destruct (lookups vs l) as [xs| |] eqn:E; simpl in H; try discriminate.
  apply lookups_inv in E.
  assert (HF : forall l xs, Forall2 (fun a v => nth_error vs a = Some v) l xs ->
      Forall2 (fun W v => vok_ W D v) (map (fun a => fun t => at_ (env t) a) l) xs).
  { clear - Hst. intros l xs Hl. induction Hl as [|a v l xs Ha Hl IH]; simpl; constructor; [|exact IH].
    exact (proj1 (state_at _ _ _ _ _ _ Hst Ha)). }
  destruct Hst as (Hok & Hs & HL & Hv) eqn:Est. clear Est.
  destruct E as [|a x l xs Ha E]; [destruct is_sum; discriminate|].
  pose proof (HF _ _ E) as HW.
  pose proof (Hv a x Ha) as Hx.
  destruct is_sum; simpl in H; injection H as H.
  - rewrite <- H. eapply step_ext; [|eapply (reduce_step add_vv Rplus); [intros; apply add_step; assumption|assumption|assumption|exact Hx|exact HW]].
    intros t. simpl. rewrite (fold_left_assoc Rplus 0) by (intros; ring). rewrite map_map. reflexivity.
  - rewrite <- H. eapply step_ext; [|eapply (reduce_step mul_vv Rmult); [intros; apply mul_step; assumption|assumption|assumption|exact Hx|exact HW]].
    intros t. simpl. rewrite (fold_left_assoc Rmult 1) by (intros; ring). rewrite map_map. reflexivity.
Qed.

Lemma instr_step g vs D env i st' :
  state_ok g vs D env -> faulty i = false -> dom_instr (env x0) i ->
  exec_instr (g, vs) i = Ret st' ->
  exists D', state_ok (fst st') (snd st') D' (fun t => env t ++ [sem_instr (env t) i]).
Proof.
  intros Hst Hf Hd He.
  enough (HH : exists r, st' = (fst r, vs ++ [snd r]) /\
                 sok g D r (fun t => sem_instr (env t) i)).
  { destruct HH as (r & -> & Hr). simpl. eapply state_snoc; eassumption. }
  pose proof Hst as (Hok & Hs & _).
  unfold exec_instr in He.
  destruct i as [x|o a|o a b|o a c|o c b|a n|l|l]; simpl in Hd |- *.
  - simpl in He. injection He as <-. exists (graph_var g x). split; [reflexivity|].
    exists [0]. simpl. pose proof (proj1 Hok) as HL. split; [|split].
    + pose proof (tape_ok_snoc s g D (Vertex 0 0 (length g) (length g)) Hok Hs) as T. simpl in T.
      replace (0 * nth (length g) (D ++ [0]) 0 + 0 * nth (length g) (D ++ [0]) 0) with 0 in T by ring.
      apply T. split; right; split; reflexivity.
    + apply fresh_seed_snoc; assumption.
    + split; [simpl; rewrite app_length; simpl; lia|]. split; [reflexivity|]. simpl.
      rewrite app_nth2, HL, Nat.sub_diag by lia. simpl. apply (is_derive_const x).
  - destruct (nth_error vs a) as [x|] eqn:E; [|discriminate].
    cbn [unwrap bind] in He.
    destruct (state_at _ _ _ _ _ _ Hst E) as [Hx Ex]. rewrite Ex in Hd.
    exists (un_v o g x). split; [destruct (un_v o g x); injection He as <-; reflexivity|].
    apply (un_step o g D x (fun t => at_ (env t) a)); assumption.
  - destruct (nth_error vs a) as [x|] eqn:E; [|discriminate].
    cbn [unwrap bind] in He.
    destruct (nth_error vs b) as [y|] eqn:E2; [|discriminate].
    cbn [unwrap bind] in He.
    destruct (state_at _ _ _ _ _ _ Hst E) as [Hx Ex]. rewrite Ex in Hd.
    destruct (state_at _ _ _ _ _ _ Hst E2) as [Hy Ey]. rewrite Ey in Hd.
    exists (bin_v o g x y). split; [destruct (bin_v o g x y); injection He as <-; reflexivity|].
    apply (bin_step o g D x y (fun t => at_ (env t) a) (fun t => at_ (env t) b)); assumption.
  - destruct (nth_error vs a) as [x|] eqn:E; [|discriminate].
    cbn [unwrap bind] in He.
    destruct (state_at _ _ _ _ _ _ Hst E) as [Hx Ex]. rewrite Ex in Hd.
    exists (vf_v o g x c). split; [destruct (vf_v o g x c); injection He as <-; reflexivity|].
    apply (vf_step o g D x (fun t => at_ (env t) a)); assumption.
  - destruct (nth_error vs b) as [x|] eqn:E; [|discriminate].
    cbn [unwrap bind] in He.
    destruct (state_at _ _ _ _ _ _ Hst E) as [Hx Ex]. rewrite Ex in Hd.
    exists (fv_v o g c x). split; [destruct (fv_v o g c x); injection He as <-; reflexivity|].
    apply (fv_step o g D x (fun t => at_ (env t) b)); assumption.
  - destruct (nth_error vs a) as [x|] eqn:E; [|discriminate].
    cbn [unwrap bind] in He.
    destruct (state_at _ _ _ _ _ _ Hst E) as [Hx Ex]. rewrite Ex in Hd.
    exists (powi_vi g x n). split; [injection He as <-; reflexivity|].
    apply (powi_step g D x (fun t => at_ (env t) a)); assumption.
  - destruct (bind (lookups vs l) (fun xs => sum_v g xs)) as [[g' v]| |] eqn:E; simpl in He; try discriminate.
    injection He as <-. exists (g', v). split; [reflexivity|].
    exact (fold_step true g vs D env l g' v Hst E).
  - destruct (bind (lookups vs l) (fun xs => product_v g xs)) as [[g' v]| |] eqn:E; simpl in He; try discriminate.
    injection He as <-. exists (g', v). split; [reflexivity|].
    exact (fold_step false g vs D env l g' v Hst E).
Qed.

Lemma sem_from_length p : forall env, length (sem_from env p) = (length env + length p)%nat.
Proof.
  induction p as [|i p IH]; intros env; unfold sem_from; simpl; [lia|].
  fold (sem_from (env ++ [sem_instr env i]) p). rewrite IH, app_length. simpl. lia.
Qed.

Lemma sem_from_prefix p : forall env a, (a < length env)%nat ->
  at_ (sem_from env p) a = at_ env a.
Proof.
  induction p as [|i p IH]; intros env a Ha; unfold sem_from; simpl; [reflexivity|].
  fold (sem_from (env ++ [sem_instr env i]) p). rewrite IH by (rewrite app_length; simpl; lia).
  unfold at_. apply app_nth1; assumption.
Qed.

Lemma dom_instr_ext env env' i :
  (forall a, In a (refs i) -> at_ env a = at_ env' a) -> dom_instr env i -> dom_instr env' i.
Proof.
  intros H. destruct i as [x|o a|o a b|o a c|o c b|a n|l|l]; simpl in *; try auto.
  - rewrite (H a) by (left; reflexivity). auto.
  - rewrite (H a), (H b) by auto. auto.
  - rewrite (H a) by (left; reflexivity). auto.
  - rewrite (H b) by (left; reflexivity). auto.
  - rewrite (H a) by (left; reflexivity). auto.
Qed.

Lemma exec_along p : forall g vs D env st',
  state_ok g vs D env -> wf_from (length vs) p ->
  (forall i, In i p -> faulty i = false) ->
  (forall i, In i p -> dom_instr (sem_from (env x0) p) i) ->
  exec (g, vs) p = Ret st' ->
  exists D', state_ok (fst st') (snd st') D' (fun t => sem_from (env t) p).
Proof.
  induction p as [|i p IH]; intros g vs D env st' Hst Hwf Hf Hd He; cbn [exec] in He.
  - injection He as <-. exists D. exact Hst.
  - apply wf_from_cons in Hwf as [[_ Hr] Hwf].
    apply bind_Ret_inv in He as ([g1 vs1] & E1 & E2).
    destruct (instr_step g vs D env i (g1, vs1) Hst) as (D1 & H1).
    + apply Hf; left; reflexivity.
    + eapply dom_instr_ext; [|apply Hd; left; reflexivity]. intros a Ha.
      apply sem_from_prefix. rewrite (proj1 (proj2 (proj2 Hst))). apply Hr; assumption.
    + exact E1.
    + simpl in H1. destruct (IH g1 vs1 D1 _ st' H1) as (D2 & H2).
      * assert (L : length vs1 = S (length vs)).
        { destruct H1 as (_ & _ & HL & _). rewrite <- (HL x0), app_length.
          rewrite (proj1 (proj2 (proj2 Hst))). simpl. lia. }
        rewrite L. exact Hwf.
      * intros; apply Hf; right; assumption.
      * intros j Hj. apply (Hd j). right; assumption.
      * exact E2.
      * exists D2. exact H2.
Qed.

End Along.

Lemma sem_app p q : sem (p ++ q) = sem_from (sem p) q.
Proof. unfold sem, sem_from. apply fold_left_app. Qed.

Lemma wf_from_app n p q : wf_from n (p ++ q) -> wf_from n p /\ wf_from (n + length p) q.
Proof.
  intros H. split.
  - intros k i Hk. apply (H k i). rewrite nth_error_app1; [assumption|].
    apply nth_error_Some. congruence.
  - intros k i Hk. replace (n + length p + k)%nat with (n + (length p + k))%nat by lia.
    apply (H (length p + k)%nat i). rewrite nth_error_app2 by lia.
    replace (length p + k - length p)%nat with k by lia. assumption.
Qed.

Theorem gradient_exact p j k i :
  well_formed p -> in_domain p -> (forall i, In i p -> faulty i = false) ->
  nth_error p j = Some i -> ~ aliases i -> (k < length p)%nat ->
  exists d, gradient p k j = Ret d /\
    is_derive (value_of p k j) (nth j (sem p) 0) d.
Proof.
  intros Hwf Hdom Hfl Hj Hal Hk.
  destruct (nth_error_split p j Hj) as (p1 & p2 & Hp & Hlen).
  assert (Hwf0 : wf_from 0 p) by exact Hwf.
  assert (Hwfp := Hwf0). rewrite Hp in Hwfp. apply wf_from_app in Hwfp as [Hwf1 Hwf2].
  apply wf_from_cons in Hwf2 as [[Hne Hr] Hwf2]. simpl in Hr, Hwf2.
  destruct (exec_spec p1 [] []) as (g1 & vs1 & E1 & W1 & I1 & _ & N1 & M1 & _).
  { intros [|?] v H; discriminate. } { intros v []. } { exact Hwf1. }
  simpl in N1, M1.
  assert (M1' : map value vs1 = sem p1) by exact M1. clear M1.
  destruct (exec_instr_spec g1 vs1 i I1 Hne) as (g2 & v & E2 & B2 & F2 & V2).
  { rewrite N1. exact Hr. }
  specialize (F2 Hal). destruct F2 as [F2 J2].
  assert (W2 : tape_wf g2) by (apply B2; exact W1).
  set (x0 := nth j (sem p) 0).
  assert (Hx0 : x0 = value v).
  { unfold x0. rewrite Hp, sem_app. change (i :: p2) with ([i] ++ p2).
    unfold sem_from. rewrite fold_left_app. simpl.
    fold (sem_from (sem p1 ++ [sem_instr (sem p1) i]) p2).
    assert (LL : length (sem p1) = j) by (rewrite <- M1', map_length; lia).
    change (at_ (sem_from (sem p1 ++ [sem_instr (sem p1) i]) p2) j = value v).
    rewrite sem_from_prefix by (rewrite app_length; simpl; lia).
    unfold at_. rewrite app_nth2 by lia. rewrite LL, Nat.sub_diag. simpl. rewrite V2, M1'. reflexivity. }
  set (s := indic (index v)).
  set (D2 := repeat 0 (length g2 - 1) ++ [1]).
  assert (LD2 : length D2 = length g2).
  { unfold D2. rewrite app_length, repeat_length. simpl. lia. }
  assert (D2lt : forall m, (m < length g2 - 1)%nat -> nth m D2 0 = 0).
  { intros m Hm. unfold D2. rewrite app_nth1 by (rewrite repeat_length; assumption). apply nth_repeat. }
  assert (D2last : nth (length g2 - 1) D2 0 = 1).
  { unfold D2. rewrite app_nth2; rewrite repeat_length; [|lia]. rewrite Nat.sub_diag. reflexivity. }
  assert (Hst : state_ok s x0 g2 (vs1 ++ [v]) D2 (fun t => sem p1 ++ [t])).
  { split; [|split; [|split]].
    - split; [assumption|]. split; [assumption|]. intros m w Hm.
      assert (Hlt : (m < length g2)%nat) by (apply nth_error_Some; congruence).
      destruct (W2 _ _ Hm) as [H0 H1].
      assert (Z : forall q (c : R), ((q < m)%nat \/ (q = m /\ c = 0)) -> c * nth q D2 0 = 0).
      { intros q c [Hq|[-> ->]]; [rewrite D2lt by lia; ring|ring]. }
      rewrite (Z _ _ H0), (Z _ _ H1). unfold s, indic.
      destruct (Nat.eq_dec m (index v)) as [->|Hn].
      + rewrite J2, D2last. ring.
      + rewrite D2lt by lia. ring.
    - intros m Hm. unfold s, indic. destruct (Nat.eq_dec m (index v)); [lia|reflexivity].
    - intros t. rewrite !app_length, <- M1', map_length. reflexivity.
    - intros m w Hm. destruct (lt_dec m (length vs1)) as [H|H].
      + rewrite nth_error_app1 in Hm by assumption.
        assert (Iw : (index w < length g1)%nat) by (apply I1; eapply nth_error_In; eassumption).
        assert (Q : forall t, nth m (sem p1 ++ [t]) 0 = value w).
        { intros t. rewrite app_nth1 by (rewrite <- M1', map_length; assumption).
          rewrite <- M1'. apply at_value; assumption. }
        split; [lia|]. split; [apply Q|]. rewrite D2lt by lia.
        eapply is_derive_ext; [intros t; symmetry; apply Q|]. apply (is_derive_const (value w)).
      + rewrite nth_error_app2 in Hm by lia.
        destruct (m - length vs1)%nat as [|q] eqn:Em; simpl in Hm; [|destruct q; discriminate].
        injection Hm as <-. assert (Q : forall t, nth m (sem p1 ++ [t]) 0 = t).
        { intros t. rewrite app_nth2 by (rewrite <- M1', map_length; lia).
          rewrite <- M1', map_length, Em. reflexivity. }
        split; [lia|]. split; [rewrite Q; exact Hx0|].
        rewrite J2, D2last. eapply is_derive_ext; [intros t; symmetry; apply Q|]. apply (is_derive_id (K:=R_AbsRing)). }
  destruct (exec_spec p2 g2 (vs1 ++ [v])) as (g3 & vs3 & E3 & W3 & I3 & _ & N3 & M3 & P3).
  { exact W2. }
  { intros w Hw. apply in_app_iff in Hw as [Hw|[<-|[]]]; [specialize (I1 w Hw); lia|apply B2]. }
  { rewrite app_length; simpl. rewrite N1, Nat.add_1_r. exact Hwf2. }
  assert (Hsem : sem p = sem_from (sem p1 ++ [x0]) p2).
  { rewrite Hp, sem_app. change (i :: p2) with ([i] ++ p2). unfold sem_from at 1.
    rewrite fold_left_app. simpl. rewrite <- M1', <- V2, Hx0. reflexivity. }
  destruct (exec_along s x0 p2 g2 (vs1 ++ [v]) D2 (fun t => sem p1 ++ [t]) (g3, vs3) Hst) as (D3 & Hst3).
  { rewrite app_length; simpl. rewrite N1, Nat.add_1_r. exact Hwf2. }
  { intros q Hq. apply Hfl. rewrite Hp. apply in_app_iff. right; right; assumption. }
  { intros q Hq. rewrite <- Hsem. apply Hdom. rewrite Hp. apply in_app_iff. right; right; assumption. }
  { exact E3. }
  simpl in Hst3. destruct Hst3 as (Hok3 & _ & HL3 & Hv3).
  assert (Hexec : exec ([], []) p = Ret (g3, vs3)).
  { rewrite Hp, exec_app.
    transitivity (bind (Ret (g1, vs1)) (fun st => exec st (i :: p2))); [f_equal; exact E1|].
    cbn [bind exec]. rewrite E2. cbn [bind]. exact E3. }
  assert (Hlv : length vs3 = length p).
  { rewrite N3, app_length, N1, Hp, app_length. simpl. lia. }
  destruct (nth_error vs3 k) as [out|] eqn:Eo; [|apply nth_error_None in Eo; lia].
  assert (Ex : nth_error vs3 j = Some v).
  { rewrite <- (firstn_skipn (length (vs1 ++ [v])) vs3), P3.
    rewrite nth_error_app1 by (rewrite app_length; simpl; lia).
    rewrite nth_error_app2 by lia. replace (j - length vs1)%nat with O by lia. reflexivity. }
  destruct (Hv3 k out Eo) as (Io & Vo & Ho).
  pose proof (proj1 Hok3) as LD3.
  destruct (accumulate_spec s g3 D3 out Hok3) as (adj & Ea & La & Hdot); [lia|].
  assert (Ivlt : (index v < length g3)%nat).
  { apply I3. eapply nth_error_In; exact Ex. }
  exists (nth (index v) adj 0). split.
  - unfold gradient. rewrite Hexec. cbn [bind]. rewrite Eo, Ex. cbn [unwrap bind].
    rewrite Ea. cbn [bind]. unfold wrt. apply get_at_spec. lia.
  - unfold s in Hdot. rewrite dot_indic in Hdot by lia. rewrite Hdot.
    eapply is_derive_ext; [|exact Ho]. intros t. unfold value_of, set_leaf.
    f_equal. rewrite Hp, firstn_app, <- Hlen, Nat.sub_diag, firstn_all. simpl firstn.
    rewrite app_nil_r.
    replace (skipn (S (length p1)) (p1 ++ i :: p2)) with p2.
    2:{ rewrite skipn_app, skipn_all2 by lia. replace (S (length p1) - length p1)%nat with 1%nat by lia. reflexivity. }
    rewrite sem_app. reflexivity.
Qed.

(** ** Joining tapes, zeroing *)

Lemma add_at_app i d l z : (i < length l)%nat ->
  add_at i d (l ++ z) = bind (add_at i d l) (fun l' => Ret (l' ++ z)).
Proof.
  revert i; induction l as [|a l IH]; intros i H; simpl in H; [lia|].
  destruct i as [|i]; simpl; [reflexivity|]. rewrite IH by lia.
  destruct (add_at i d l); reflexivity.
Qed.

Lemma add_at_0 i d l : (i < length l)%nat -> d = 0 -> add_at i d l = Ret l.
Proof.
  intros H ->. revert i H; induction l as [|a l IH]; intros i H; simpl in H; [lia|].
  destruct i as [|i]; simpl; [rewrite Rplus_0_r; reflexivity|]. rewrite IH by lia. reflexivity.
Qed.

Lemma back_loop_app g h z : tape_wf g -> forall n adj,
  (n <= length g)%nat -> length adj = length g ->
  back_loop n (g ++ h) (adj ++ z) = bind (back_loop n g adj) (fun a => Ret (a ++ z)).
Proof.
  intros Hwf n. induction n as [|n IH]; intros adj Hn Hl; simpl; [reflexivity|].
  rewrite nth_error_app1 by lia.
  destruct (nth_error g n) as [v|] eqn:Hv; [|reflexivity]. simpl.
  destruct (Hwf _ _ Hv) as [H0 H1].
  unfold back_step. rewrite !get_at_spec by (try rewrite app_length; lia). simpl.
  rewrite app_nth1 by lia.
  rewrite add_at_app by (destruct H0 as [?|[? ?]]; lia).
  destruct (add_at_spec (par0 v) (part0 v * nth n adj 0) adj (fun _ => 0)) as (a1 & E1 & L1 & _);
    [destruct H0 as [?|[? ?]]; lia|].
  rewrite E1. simpl.
  rewrite add_at_app by (destruct H1 as [?|[? ?]]; lia).
  destruct (add_at_spec (par1 v) (part1 v * nth n adj 0) a1 (fun _ => 0)) as (a2 & E2 & L2 & _);
    [destruct H1 as [?|[? ?]]; lia|].
  rewrite E2. simpl. apply IH; lia.
Qed.

Lemma back_loop_skip g h z : tape_wf h -> forall m adj,
  (m <= length h)%nat -> length adj = length g -> length z = length h ->
  (forall q, nth q z 0 = 0) ->
  back_loop (length g + m) (g ++ h) (adj ++ z) = back_loop (length g) (g ++ h) (adj ++ z).
Proof.
  intros Hwf m. induction m as [|m IH]; intros adj Hm Hl Hz H0; [rewrite Nat.add_0_r; reflexivity|].
  rewrite Nat.add_succ_r. simpl. rewrite nth_error_app2 by lia.
  replace (length g + m - length g)%nat with m by lia.
  destruct (nth_error h m) as [v|] eqn:Hv; [|apply nth_error_None in Hv; lia]. simpl.
  destruct (Hwf _ _ Hv) as [P0 P1].
  unfold back_step. rewrite get_at_spec by (rewrite app_length; lia). simpl.
  rewrite app_nth2 by lia. rewrite Hl. replace (length g + m - length g)%nat with m by lia.
  rewrite H0.
  rewrite add_at_0; [|rewrite app_length; destruct P0 as [?|[? ?]]; lia|ring]. simpl.
  rewrite add_at_0; [|rewrite app_length; destruct P1 as [?|[? ?]]; lia|ring]. simpl.
  apply IH; try assumption; lia.
Qed.

Lemma set_at_app i d l z : (i < length l)%nat ->
  set_at i d (l ++ z) = bind (set_at i d l) (fun l' => Ret (l' ++ z)).
Proof.
  revert i; induction l as [|a l IH]; intros i H; simpl in H; [lia|].
  destruct i as [|i]; simpl; [reflexivity|]. rewrite IH by lia.
  destruct (set_at i d l); reflexivity.
Qed.

Lemma join_first g h out adj :
  tape_wf g -> tape_wf h -> (index out < length g)%nat ->
  accumulate g out = Ret adj ->
  accumulate (graph_join g h) out = Ret (adj ++ repeat 0 (length h)).
Proof.
  intros Hg Hh Ho Ha. unfold accumulate, graph_join in *.
  rewrite app_length, repeat_app. rewrite set_at_app by (rewrite repeat_length; assumption).
  apply bind_Ret_inv in Ha as (a & Es & Eb). rewrite Es. cbn [bind].
  assert (La : length a = length g).
  { destruct (set_at_spec (index out) 1 (repeat 0 (length g)) (fun _ => 0)) as (a' & E' & L' & _).
    - rewrite repeat_length; assumption.
    - intros x Hx. apply repeat_spec in Hx. assumption.
    - rewrite E' in Es. injection Es as <-. rewrite repeat_length in L'. assumption. }
  rewrite back_loop_skip; [|assumption|lia|assumption|apply repeat_length|intros; apply nth_repeat].
  rewrite back_loop_app by (try assumption; lia). rewrite Eb. reflexivity.
Qed.

Lemma exec_wf p g vs : well_formed p -> exec ([], []) p = Ret (g, vs) -> tape_wf g /\ vars_in g vs.
Proof.
  intros Hwf E. destruct (exec_spec p [] []) as (g' & vs' & E' & W & I & _).
  { intros [|?] v H; discriminate. } { intros v []. } { exact Hwf. }
  assert (EE : Ret (g, vs) = Ret (g', vs')) by (etransitivity; [symmetry; exact E|exact E']).
  injection EE as <- <-. split; assumption.
Qed.
