(** Automatic differentiation: property theorems (C07 - C10). *)
From Coq Require Import Reals List ZArith Lia Lra.
From Coquelicot Require Import Coquelicot.
From Verif Require Import Res SpecialFns AdModel AdSpec AdProofs AdGradient.
Import ListNotations.
Open Scope R_scope.

(** A program with sharing and a composite operator:
    with u = x - y and w = u * exp u, the sum x + w + w / ln x at x = 3, y = 2. *)
Definition demo : list instr :=
  [ILeaf 3; ILeaf 2; IBin Sub 0 1; IUn Exp 2; IBin Mul 2 3; IUn Ln 0; IBin Div 4 5;
   ISum [0; 4; 6]%nat].

Lemma ln_nz x : 1 < x -> ln x <> 0.
Proof. intros H. apply Rgt_not_eq. rewrite <- ln_1. apply ln_increasing; lra. Qed.

Lemma demo_wf : well_formed demo.
Proof.
  intros k i H. do 8 (destruct k as [|k]; [injection H as <-; split; [exact I || discriminate|];
    simpl; intros a Ha; repeat (destruct Ha as [<-|Ha]; [lia|]); destruct Ha|]).
  destruct k; discriminate.
Qed.
Lemma demo_dom : in_domain demo.
Proof.
  intros i H. simpl in H.
  repeat (destruct H as [<-|H]; [cbn; try exact I; try lra; try (apply ln_nz; lra)|]). destruct H.
Qed.
Lemma demo_sound : forall i, In i demo -> faulty i = false.
Proof. intros i H. simpl in H. repeat (destruct H as [<-|H]; [reflexivity|]). destruct H. Qed.

(** C07: the reverse sweep computes the derivative of the value of any variable
    with respect to any other variable, leaf or intermediate, for every program
    whose calls are differentiable where they are made. *)
Theorem ad_gradient_exact : forall p j k i,
  well_formed p -> in_domain p -> (forall i, In i p -> faulty i = false) ->
  nth_error p j = Some i -> ~ aliases i -> (k < length p)%nat ->
  exists d, gradient p k j = Ret d /\
    is_derive (value_of p k j) (nth j (sem p) 0) d.
Proof. exact gradient_exact. Qed.
Print Assumptions ad_gradient_exact.
Example ad_gradient_exact_ex :
  well_formed demo /\ in_domain demo /\ (forall i, In i demo -> faulty i = false) /\
  nth_error demo 0 = Some (ILeaf 3) /\ ~ aliases (ILeaf 3) /\ (7 < length demo)%nat.
Proof.
  split; [exact demo_wf|]. split; [exact demo_dom|]. split; [exact demo_sound|].
  split; [reflexivity|]. split; [exact (fun H => H)|simpl; lia].
Qed.

(** C08: every well-formed program builds a tape whose vertices refer backwards
    (or to themselves with weight zero), computes the plain values, and can be
    differentiated from any of its variables without a panic. *)
Theorem ad_tape_well_formed : forall p, well_formed p ->
  exists g vs, exec ([], []) p = Ret (g, vs) /\
    length vs = length p /\ map value vs = sem p /\
    (forall i v, nth_error g i = Some v ->
       ((par0 v < i)%nat \/ (par0 v = i /\ part0 v = 0)) /\
       ((par1 v < i)%nat \/ (par1 v = i /\ part1 v = 0))) /\
    (forall v, In v vs -> (index v < length g)%nat) /\
    (forall out x, In out vs -> In x vs ->
       exists adj d, accumulate g out = Ret adj /\ length adj = length g /\ wrt adj x = Ret d).
Proof.
  intros p Hwf. destruct (exec_spec p [] []) as (g & vs & E & W & I & _ & N & M & _).
  { intros [|?] v H; discriminate. } { intros v []. } { exact Hwf. }
  exists g, vs. split; [exact E|]. split; [exact N|]. split; [exact M|]. split; [exact W|].
  split; [exact I|]. intros out x Ho Hx.
  destruct (accumulate_total g out W (I out Ho)) as (adj & Ea & La).
  exists adj, (nth (index x) adj 0). split; [exact Ea|]. split; [exact La|].
  apply get_at_spec. rewrite La. apply I; assumption.
Qed.
Print Assumptions ad_tape_well_formed.
Example ad_tape_well_formed_ex : well_formed demo.
Proof. exact demo_wf. Qed.

(** C08: the empty iterator sum and product are the only calls that panic. *)
Theorem ad_empty_fold_panics : forall g vs,
  exec_instr (g, vs) (ISum []) = Panic /\ exec_instr (g, vs) (IProd []) = Panic.
Proof. intros; split; reflexivity. Qed.
Print Assumptions ad_empty_fold_panics.

(** C09: every primitive that is not in the [faulty] list is differentiated
    correctly in each of its arguments. *)
Lemma small_wf p : (forall k i, nth_error p k = Some i ->
    nonempty_fold i /\ forall a, In a (refs i) -> (a < k)%nat) -> well_formed p.
Proof. exact (fun H => H). Qed.

Ltac wf_tac :=
  intros k' i' H'; repeat (destruct k' as [|k'];
    [injection H' as <-; split; [exact I || discriminate|];
     simpl; intros a' Ha'; repeat (destruct Ha' as [<-|Ha']; [lia|]); destruct Ha'|]);
  destruct k'; discriminate H'.

Theorem ad_unary_exact : forall o x,
  faulty (IUn o 0) = false -> dom_un o x ->
  exists d, gradient [ILeaf x; IUn o 0] 1 0 = Ret d /\ is_derive (sem_un o) x d.
Proof.
  intros o x Hf Hd.
  destruct (gradient_exact [ILeaf x; IUn o 0] 0 1 (ILeaf x)) as (d & E & H).
  - wf_tac.
  - intros i [<-|[<-|[]]]; [exact I|exact Hd].
  - intros i [<-|[<-|[]]]; [reflexivity|exact Hf].
  - reflexivity.
  - exact (fun H => H).
  - simpl; lia.
  - exists d. split; [exact E|exact H].
Qed.
Print Assumptions ad_unary_exact.
Example ad_unary_exact_ex : faulty (IUn Atanh 0) = false /\ dom_un Atanh (1 / 2).
Proof. split; [reflexivity|simpl; lra]. Qed.

Theorem ad_binary_exact : forall o x y,
  faulty (IBin o 0 1) = false -> dom_bin o x y ->
  exists dx dy,
    gradient [ILeaf x; ILeaf y; IBin o 0 1] 2 0 = Ret dx /\
    gradient [ILeaf x; ILeaf y; IBin o 0 1] 2 1 = Ret dy /\
    is_derive (fun t => sem_bin o t y) x dx /\ is_derive (fun t => sem_bin o x t) y dy.
Proof.
  intros o x y Hf Hd.
  assert (W : well_formed [ILeaf x; ILeaf y; IBin o 0 1]) by wf_tac.
  assert (Dm : in_domain [ILeaf x; ILeaf y; IBin o 0 1]).
  { intros i [<-|[<-|[<-|[]]]]; [exact I|exact I|exact Hd]. }
  assert (Sd : forall i, In i [ILeaf x; ILeaf y; IBin o 0 1] -> faulty i = false).
  { intros i [<-|[<-|[<-|[]]]]; [reflexivity|reflexivity|exact Hf]. }
  destruct (gradient_exact _ 0 2 (ILeaf x) W Dm Sd eq_refl (fun H => H)) as (dx & Ex & Hx); [simpl; lia|].
  destruct (gradient_exact _ 1 2 (ILeaf y) W Dm Sd eq_refl (fun H => H)) as (dy & Ey & Hy); [simpl; lia|].
  exists dx, dy. split; [exact Ex|]. split; [exact Ey|]. split; [exact Hx|exact Hy].
Qed.
Print Assumptions ad_binary_exact.
Example ad_binary_exact_ex : faulty (IBin Powf 0 1) = false /\ dom_bin Powf 2 (-3).
Proof. split; [reflexivity|simpl; lra]. Qed.

Theorem ad_constant_right_exact : forall o x c,
  dom_bin (vf_bin o) x c ->
  exists d, gradient [ILeaf x; IVF o 0 c] 1 0 = Ret d /\
            is_derive (fun t => sem_bin (vf_bin o) t c) x d.
Proof.
  intros o x c Hd.
  destruct (gradient_exact [ILeaf x; IVF o 0 c] 0 1 (ILeaf x)) as (d & E & H).
  - wf_tac.
  - intros i [<-|[<-|[]]]; [exact I|exact Hd].
  - intros i [<-|[<-|[]]]; reflexivity.
  - reflexivity.
  - exact (fun H => H).
  - simpl; lia.
  - exists d. split; [exact E|exact H].
Qed.
Print Assumptions ad_constant_right_exact.
Example ad_constant_right_exact_ex : dom_bin (vf_bin VLog) 5 3.
Proof. simpl; lra. Qed.

Theorem ad_constant_left_exact : forall o x c,
  faulty (IFV o c 0) = false -> dom_bin o c x ->
  exists d, gradient [ILeaf x; IFV o c 0] 1 0 = Ret d /\
            is_derive (fun t => sem_bin o c t) x d.
Proof.
  intros o x c Hf Hd.
  destruct (gradient_exact [ILeaf x; IFV o c 0] 0 1 (ILeaf x)) as (d & E & H).
  - wf_tac.
  - intros i [<-|[<-|[]]]; [exact I|exact Hd].
  - intros i [<-|[<-|[]]]; [reflexivity|exact Hf].
  - reflexivity.
  - exact (fun H => H).
  - simpl; lia.
  - exists d. split; [exact E|exact H].
Qed.
Print Assumptions ad_constant_left_exact.
Example ad_constant_left_exact_ex : faulty (IFV Log 5 0) = false /\ dom_bin Log 5 3.
Proof. split; [reflexivity|simpl; lra]. Qed.

Theorem ad_powi_exact : forall x n,
  (0 < n)%Z \/ x <> 0 ->
  exists d, gradient [ILeaf x; IPowi 0 n] 1 0 = Ret d /\
            is_derive (fun t => powerRZ t n) x d.
Proof.
  intros x n Hd.
  destruct (gradient_exact [ILeaf x; IPowi 0 n] 0 1 (ILeaf x)) as (d & E & H).
  - wf_tac.
  - intros i [<-|[<-|[]]]; [exact I|exact Hd].
  - intros i [<-|[<-|[]]]; reflexivity.
  - reflexivity.
  - exact (fun H => H).
  - simpl; lia.
  - exists d. split; [exact E|exact H].
Qed.
Print Assumptions ad_powi_exact.
Example ad_powi_exact_ex : (0 < 3)%Z \/ 0 <> 0.
Proof. left; lia. Qed.

(** C09 is false of the faulty calls. [wrong p k j]: the program is fine, every
    call is differentiable where it is made, yet the gradient returned is not
    the derivative. *)
Definition wrong (p : list instr) (k j : nat) : Prop :=
  well_formed p /\ in_domain p /\
  exists d, gradient p k j = Ret d /\ ~ is_derive (value_of p k j) (nth j (sem p) 0) d.

Lemma not_derive (f : R -> R) (x a b : R) : is_derive f x a -> a <> b -> ~ is_derive f x b.
Proof.
  intros Ha Hne Hb. apply Hne. apply is_derive_unique in Ha. apply is_derive_unique in Hb.
  congruence.
Qed.

Lemma ln2_lt_1 : ln 2 < 1.
Proof.
  rewrite <- (ln_exp 1). apply ln_increasing; [lra|]. pose proof (exp_ineq1 1). lra.
Qed.
Lemma ln2_pos : 0 < ln 2.
Proof. rewrite <- ln_1. apply ln_increasing; lra. Qed.
Lemma ln10_gt_1 : 1 < ln 10.
Proof.
  rewrite <- (ln_exp 1) at 1. apply ln_increasing; [apply exp_pos|].
  pose proof exp_le_3. lra.
Qed.

Ltac grad := cbn [gradient]; unfold gradient; cbn; try reflexivity.

Theorem ad_log10_refuted : forall x, 0 < x -> wrong [ILeaf x; IUn Log10 0] 1 0.
Proof.
  intros x Hx. split; [wf_tac|]. split.
  { intros i [<-|[<-|[]]]; [exact I|exact Hx]. }
  exists (/ x). split.
  - unfold gradient; cbn. f_equal. ring.
  - pose proof (un_partial_ok Log10 x Hx) as H.
    apply (not_derive _ _ (un_partial Log10 x)); [exact H|].
    simpl. pose proof ln10_gt_1. rewrite Rinv_mult. intros E.
    assert (0 < / x) by (apply Rinv_0_lt_compat; assumption).
    assert (/ ln 10 = 1) by (apply (Rmult_eq_reg_l (/ x)); lra).
    assert (/ ln 10 < 1) by (rewrite <- Rinv_1; apply Rinv_lt_contravar; lra). lra.
Qed.
Print Assumptions ad_log10_refuted.

Theorem ad_log2_refuted : forall x, 0 < x -> wrong [ILeaf x; IUn Log2 0] 1 0.
Proof.
  intros x Hx. split; [wf_tac|]. split.
  { intros i [<-|[<-|[]]]; [exact I|exact Hx]. }
  exists (/ x). split.
  - unfold gradient; cbn. f_equal. ring.
  - pose proof (un_partial_ok Log2 x Hx) as H.
    apply (not_derive _ _ (un_partial Log2 x)); [exact H|].
    simpl. pose proof ln2_lt_1. pose proof ln2_pos. rewrite Rinv_mult. intros E.
    assert (0 < / x) by (apply Rinv_0_lt_compat; assumption).
    assert (/ ln 2 = 1) by (apply (Rmult_eq_reg_l (/ x)); lra).
    assert (1 < / ln 2) by (rewrite <- Rinv_1 at 1; apply Rinv_lt_contravar; lra). lra.
Qed.
Print Assumptions ad_log2_refuted.

(** log with a variable base: the two partials are swapped; at x = 1, base = e
    the derivative in x is 1 and the code returns 0 *)
Theorem ad_log_base_refuted : wrong [ILeaf 1; ILeaf (exp 1); IBin Log 0 1] 2 0.
Proof.
  assert (E1 : 1 < exp 1) by (pose proof (exp_ineq1 1); lra).
  split; [wf_tac|]. split.
  { intros i [<-|[<-|[<-|[]]]]; [exact I|exact I|].
    change (0 < 1 /\ 0 < exp 1 /\ exp 1 <> 1). repeat split; lra. }
  eexists. split; [unfold gradient; cbn; reflexivity|].
  apply (not_derive _ _ 1).
  - unfold value_of, set_leaf; cbn. rewrite ln_exp. auto_derive; [lra|field].
  - rewrite ln_1, ln_exp. lra.
Qed.
Print Assumptions ad_log_base_refuted.

(** f64.min(Variable) and f64.max(Variable): the indicator is inverted *)
Theorem ad_min_constant_left_refuted : forall c y, c <> y -> wrong [ILeaf y; IFV Min c 0] 1 0.
Proof.
  intros c y H. split; [wf_tac|]. split.
  { intros i [<-|[<-|[]]]; [exact I|exact H]. }
  exists (ind_lt c y). split.
  - unfold gradient; cbn. f_equal. ring.
  - apply (not_derive _ _ (ind_lt c y * 0 + ind_lt y c * 1)).
    + unfold value_of, set_leaf; cbn.
      apply (d_min2 (fun _ => c) (fun t => t) y 0 1);
        [apply (is_derive_const (K:=R_AbsRing) (V:=R_NormedModule) c)|apply (is_derive_id (K:=R_AbsRing))|exact H].
    + unfold ind_lt. destruct (Rlt_dec c y), (Rlt_dec y c); lra.
Qed.
Print Assumptions ad_min_constant_left_refuted.

Theorem ad_max_constant_left_refuted : forall c y, c <> y -> wrong [ILeaf y; IFV Max c 0] 1 0.
Proof.
  intros c y H. split; [wf_tac|]. split.
  { intros i [<-|[<-|[]]]; [exact I|exact H]. }
  exists (ind_lt y c). split.
  - unfold gradient; cbn. f_equal. ring.
  - apply (not_derive _ _ (ind_lt y c * 0 + ind_lt c y * 1)).
    + unfold value_of, set_leaf; cbn.
      apply (d_max2 (fun _ => c) (fun t => t) y 0 1);
        [apply (is_derive_const (K:=R_AbsRing) (V:=R_NormedModule) c)|apply (is_derive_id (K:=R_AbsRing))|exact H].
    + unfold ind_lt. destruct (Rlt_dec c y), (Rlt_dec y c); lra.
Qed.
Print Assumptions ad_max_constant_left_refuted.

(** constant base raised to a variable: the power rule is used where the
    exponential rule is needed *)
Theorem ad_powf_constant_base_refuted :
  wrong [ILeaf 3; IFV Powf 2 0] 1 0 /\ wrong [ILeaf 3; IFV Powi 2 0] 1 0.
Proof.
  assert (P : forall o, (o = Powf \/ o = Powi) -> wrong [ILeaf 3; IFV o 2 0] 1 0).
  { intros o Ho. split; [wf_tac|]. split.
    { intros i [<-|[<-|[]]]; [exact I|]. destruct Ho as [-> | ->]; simpl; lra. }
    exists (3 * Rpower 2 (3 - 1)). split.
    - destruct Ho as [-> | ->]; unfold gradient; cbn; f_equal; ring.
    - apply (not_derive _ _ (Rpower 2 3 * ln 2)).
      + destruct Ho as [-> | ->]; apply d_exp2.
      + replace (Rpower 2 3) with 8.
        2:{ replace 3 with (INR 3) by (simpl; ring). rewrite Rpower_pow by lra. ring. }
        replace (3 - 1) with (INR 2) by (simpl; ring). rewrite Rpower_pow by lra.
        pose proof ln2_lt_1. nra. }
  split; apply P; auto.
Qed.
Print Assumptions ad_powf_constant_base_refuted.

(** Outside the domain of the exactness theorem: the minimum of a variable with
    itself is that variable, but its recorded derivative is zero. *)
Theorem ad_min_tie_refuted : forall x,
  exists d, gradient [ILeaf x; IBin Min 0 0] 1 0 = Ret d /\
    ~ is_derive (value_of [ILeaf x; IBin Min 0 0] 1 0) x d.
Proof.
  intros x. eexists. split; [unfold gradient; cbn; reflexivity|].
  apply (not_derive _ _ 1).
  - unfold value_of, set_leaf; cbn.
    apply (is_derive_ext (fun t => t)); [|apply (is_derive_id (K:=R_AbsRing))].
    intros t. symmetry. unfold Rmin. destruct (Rle_dec t t); reflexivity.
  - unfold ind_lt. destruct (Rlt_dec x x); lra.
Qed.
Print Assumptions ad_min_tie_refuted.

(** C10 is false: after joining, a variable of the second graph (found at its
    shifted index) is attributed to a variable of the first one. *)
Theorem ad_join_refuted :
  exists p q g vs h ws gin out,
    exec ([], []) p = Ret (g, vs) /\ exec ([], []) q = Ret (h, ws) /\
    nth_error ws 0 = Some gin /\ nth_error ws 1 = Some out /\
    let shift v := Var (value v) (length g + index v) in
    exists adj,
      accumulate (graph_join g h) (shift out) = Ret adj /\
      (* derivative reported with respect to its own input: 0 *)
      wrt adj (shift gin) = Ret 0 /\ ~ is_derive (value_of q 1 0) (value gin) 0 /\
      (* derivative reported with respect to an unrelated variable *)
      (forall v, nth_error vs 0 = Some v -> exists d, wrt adj v = Ret d /\ d <> 0).
Proof.
  exists [ILeaf 5], [ILeaf 2; IUn Exp 0]. do 6 eexists.
  split; [reflexivity|]. split; [reflexivity|]. split; [reflexivity|]. split; [reflexivity|].
  cbn. eexists. split; [reflexivity|]. split; [f_equal; ring|]. split.
  - apply (not_derive _ _ (exp 2)); [apply is_derive_exp|]. apply Rgt_not_eq, exp_pos.
  - intros v [= <-]. eexists. split; [reflexivity|]. cbn. pose proof (exp_pos 2). lra.
Qed.
Print Assumptions ad_join_refuted.

(** What does hold of [join]: gradients of outputs of the first graph are kept. *)
Theorem ad_join_keeps_first : forall p q g vs h ws out adj,
  well_formed p -> well_formed q ->
  exec ([], []) p = Ret (g, vs) -> exec ([], []) q = Ret (h, ws) ->
  In out vs -> accumulate g out = Ret adj ->
  accumulate (graph_join g h) out = Ret (adj ++ repeat 0 (length h)).
Proof.
  intros p q g vs h ws out adj Hp Hq Ep Eq Ho Ha.
  destruct (exec_wf p g vs Hp Ep) as [Wg Ig]. destruct (exec_wf q h ws Hq Eq) as [Wh _].
  apply join_first; try assumption. apply Ig; assumption.
Qed.
Print Assumptions ad_join_keeps_first.
Example ad_join_keeps_first_ex :
  exists g vs out adj, well_formed demo /\ exec ([], []) demo = Ret (g, vs) /\ In out vs /\
    accumulate g out = Ret adj.
Proof.
  destruct (ad_tape_well_formed demo demo_wf) as (g & vs & E & L & _ & _ & _ & A).
  destruct vs as [|v vs]; [discriminate L|].
  destruct (A v v (or_introl eq_refl) (or_introl eq_refl)) as (adj & _ & Ea & _ & _).
  exists g, (v :: vs), v, adj. split; [exact demo_wf|]. split; [exact E|]. split; [left; reflexivity|exact Ea].
Qed.

(** An index outside the tape panics: [wrt] for a variable of a longer tape and
    [accumulate] for an output that is not on the tape. *)
Theorem ad_foreign_index_panics : forall adj x g out,
  (wrt adj x = Panic <-> (length adj <= index x)%nat) /\ ((length g <= index out)%nat -> accumulate g out = Panic).
Proof.
  intros adj x g out. split.
  - unfold wrt. generalize (index x) as i. induction adj as [|a adj IH]; intros i.
    + split; [cbn [length]; lia|destruct i; reflexivity].
    + destruct i as [|i]; [split; [discriminate|cbn [length]; lia]|]. change (get_at (S i) (a :: adj)) with (get_at i adj). rewrite IH. cbn [length]. lia.
  - intros H. unfold accumulate. assert (E : forall l i, (length l <= i)%nat -> set_at i 1 l = Panic).
    { induction l as [|a l IH]; intros i Hi; [destruct i; reflexivity|]. destruct i as [|i]; cbn [length] in Hi; [lia|]. cbn [set_at]. rewrite IH by lia. reflexivity. }
    rewrite E; [reflexivity|]. rewrite repeat_length. exact H.
Qed.
Print Assumptions ad_foreign_index_panics.
