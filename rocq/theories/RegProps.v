(** C50: linear and ridge regression minimise their objectives. *)
From Coq Require Import Reals PeanoNat Bool Lra Lia.
From Verif Require Import Res InterpModel InterpProofs MatLib ActModel RegModel.
Open Scope R_scope.

(** ** What is minimised *)

(** sum of squared residuals of coefficients [c] (k of them) on n samples *)
Definition rss (n k : nat) (x : mat) (y c : vec) : R := bs n (fun i => (y i - mvec k x c i) ^ 2).
(** with a penalty weight per coefficient *)
Definition penalised (n k : nat) (x : mat) (y d c : vec) : R := rss n k x y c + bs k (fun j => d j * (c j) ^ 2).

(** the normal equations X'(y - X b) = d b *)
Definition normal (n k : nat) (x : mat) (y d b : vec) : Prop :=
  forall j, (j < k)%nat -> mvec n (tr x) (fun i => y i - mvec k x b i) j = d j * b j.

Lemma penalised_pythagoras n k x y d b c : normal n k x y d b ->
  penalised n k x y d c = penalised n k x y d b + (bs n (fun i => (mvec k x (fun j => c j - b j) i) ^ 2) + bs k (fun j => d j * (c j - b j) ^ 2)).
Proof.
  intros N. unfold penalised, rss. set (h := fun j => c j - b j).
  assert (A : bs n (fun i => (y i - mvec k x c i) ^ 2) =
    bs n (fun i => (y i - mvec k x b i) ^ 2) + (bs n (fun i => (mvec k x h i) ^ 2) + -2 * dotn n (mvec k x h) (fun i => y i - mvec k x b i))).
  { unfold dotn. rewrite <- bs_scal, <- !bs_plus. apply bs_ext. intros i Hi. unfold h. rewrite mvec_minus. ring. }
  assert (B : dotn n (mvec k x h) (fun i => y i - mvec k x b i) = bs k (fun j => h j * (d j * b j))).
  { rewrite dot_tr. unfold dotn. apply bs_ext. intros j Hj. rewrite (N j Hj). reflexivity. }
  assert (C : bs k (fun j => d j * c j ^ 2) = bs k (fun j => d j * b j ^ 2) + (bs k (fun j => d j * h j ^ 2) + 2 * bs k (fun j => h j * (d j * b j)))).
  { rewrite <- bs_scal, <- !bs_plus. apply bs_ext. intros j Hj. unfold h. ring. }
  change (fun j => d j * (c j - b j) ^ 2) with (fun j => d j * h j ^ 2). rewrite A, B, C. ring.
Qed.
Lemma normal_optimal n k x y d b : (forall j, (j < k)%nat -> 0 <= d j) -> normal n k x y d b ->
  forall c, penalised n k x y d b <= penalised n k x y d c.
Proof.
  intros D N c. rewrite (penalised_pythagoras n k x y d b c N).
  assert (0 <= bs n (fun i => (mvec k x (fun j => c j - b j) i) ^ 2)) by (apply bs_nonneg; intros; apply pow2_ge_0).
  assert (0 <= bs k (fun j => d j * (c j - b j) ^ 2)) by (apply bs_nonneg; intros j Hj; apply Rmult_le_pos; [apply D, Hj|apply pow2_ge_0]). lra.
Qed.

(** ** Correctness of the matrix routines of nalgebra, as hypotheses *)
Definition inverse_ok (inverse : nat -> mat -> option mat) : Prop :=
  forall k A B, inverse k A = Some B -> is_eye k (mmul k A B) /\ is_eye k (mmul k B A).
Definition qr_ok (n k : nat) (x : mat) (f : mat * mat) : Prop :=
  let (q, r) := f in
    is_eye k (mmul n (tr q) q) /\ forall i j, (i < n)%nat -> (j < k)%nat -> x i j = mmul k q r i j.
Definition svd_ok (n k : nat) (x : mat) (f : mat * vec * mat) : Prop :=
  let '(u, s, vt) := f in let p := Nat.min n k in
    is_eye p (mmul n (tr u) u) /\ is_eye p (mmul k vt (tr vt)) /\
    ((k <= n)%nat -> is_eye k (mmul k (tr vt) vt)) /\
    forall i j, (i < n)%nat -> (j < k)%nat -> x i j = mmul p (mmul p u (diag s)) vt i j.

Lemma linear_none_normal inverse n m X y a c : inverse_ok inverse -> linear_none inverse n m X y = Fitted a c ->
  a = c O /\ normal n (S m) (insert_ones X) y (fun _ => 0) c /\
  (forall h, (forall j, (j < S m)%nat -> mvec (S m) (mmul n (tr (insert_ones X)) (insert_ones X)) h j = 0) -> forall j, (j < S m)%nat -> h j = 0).
Proof.
  intros HI H. unfold linear_none in H. destruct (inverse (S m) _) as [b|] eqn:E; [|discriminate].
  destruct (HI _ _ _ E) as [I1 I2]. set (x := insert_ones X) in *.
  assert (c = mvec (S m) b (mvec n (tr x) y)) by congruence. subst c. split; [congruence|]. split.
  - intros j Hj. rewrite mvec_minus, Rmult_0_l. rewrite <- (mvec_mmul (S m) n (tr x) x).
    rewrite <- (mvec_mmul (S m) (S m) (mmul n (tr x) x) b (mvec n (tr x) y) j), (mvec_eye (S m) _ _ j I1 Hj). ring.
  - intros h Hh j Hj. rewrite <- (mvec_eye (S m) _ h j I2 Hj), mvec_mmul. unfold mvec at 1. rewrite (bs_ext _ _ (fun _ => 0)); [apply bs_zero|].
    intros l Hl. rewrite (Hh l Hl). ring.
Qed.

(** Without a decomposition the coefficients minimise the sum of squared
    residuals, and any other minimiser has the same coefficients. *)
Theorem linear_none_optimal : forall inverse n m X y a c, inverse_ok inverse ->
  linear_none inverse n m X y = Fitted a c ->
  a = c O /\ (forall c', rss n (S m) (insert_ones X) y c <= rss n (S m) (insert_ones X) y c') /\
  (forall c', rss n (S m) (insert_ones X) y c' <= rss n (S m) (insert_ones X) y c -> forall j, (j < S m)%nat -> c' j = c j).
Proof.
  intros inverse n m X y a c HI H. destruct (linear_none_normal _ _ _ _ _ _ _ HI H) as (Ha & N & U). set (x := insert_ones X) in *.
  assert (Z : forall v, penalised n (S m) x y (fun _ => 0) v = rss n (S m) x y v).
  { intros v. unfold penalised. rewrite (bs_ext _ _ (fun _ => 0)), bs_zero; [ring|]. intros; ring. }
  split; [exact Ha|]. split.
  - intros c'. rewrite <- !Z. apply normal_optimal; [intros; lra|exact N].
  - intros c' Hle j Hj. rewrite <- !Z, (penalised_pythagoras _ _ _ _ _ _ c' N) in Hle.
    rewrite (bs_ext (S m) _ (fun _ => 0)), bs_zero in Hle by (intros; ring).
    assert (P : 0 <= bs n (fun i => mvec (S m) x (fun j => c' j - c j) i ^ 2)) by (apply bs_nonneg; intros; apply pow2_ge_0).
    assert (Q : forall i, (i < n)%nat -> mvec (S m) x (fun j => c' j - c j) i ^ 2 = 0) by (apply bs_zero_inv; [intros; apply pow2_ge_0|lra]).
    assert (h0 : c' j - c j = 0); [|lra]. apply (U (fun j => c' j - c j)); [|exact Hj]. intros l Hl. rewrite mvec_mmul.
    unfold mvec at 1. rewrite (bs_ext _ _ (fun _ => 0)); [apply bs_zero|]. intros i Hi. specialize (Q i Hi). simpl in Q.
    assert (E : mvec (S m) x (fun j => c' j - c j) i = 0) by nra. rewrite E. ring.
Qed.
Print Assumptions linear_none_optimal.

(** Residuals sum to zero and are uncorrelated with every feature. *)
Theorem linear_residuals : forall inverse n m X y a c, inverse_ok inverse -> linear_none inverse n m X y = Fitted a c ->
  bs n (fun i => y i - reg_predict m a c X i) = 0 /\
  forall j, (j < m)%nat -> bs n (fun i => X i j * (y i - reg_predict m a c X i)) = 0.
Proof.
  intros inverse n m X y a c HI H. destruct (linear_none_normal _ _ _ _ _ _ _ HI H) as (Ha & N & _). subst a.
  assert (P : forall i, mvec (S m) (insert_ones X) c i = reg_predict m (c O) c X i).
  { intros i. unfold mvec, reg_predict. rewrite bs_shift. simpl. unfold mvec. ring. }
  split.
  - pose proof (N O ltac:(lia)) as E. unfold mvec at 1 in E. rewrite Rmult_0_l in E. rewrite <- E. apply bs_ext. intros i Hi. unfold tr. simpl insert_ones.
    cbn beta. rewrite P. unfold insert_ones. ring.
  - intros j Hj. pose proof (N (S j) ltac:(lia)) as E. unfold mvec at 1 in E. rewrite Rmult_0_l in E. rewrite <- E. apply bs_ext. intros i Hi.
    cbn beta. rewrite P. reflexivity.
Qed.
Print Assumptions linear_residuals.

(** Exact data is recovered: if some coefficients reproduce every response then
    those are the coefficients returned, and predictions on any input are those
    of the true relation. *)
Theorem linear_recovers : forall inverse n m X y a c a0 c0, inverse_ok inverse -> linear_none inverse n m X y = Fitted a c ->
  (forall i, (i < n)%nat -> y i = a0 + bs m (fun j => X i j * c0 j)) ->
  a = a0 /\ (forall j, (j < m)%nat -> c (S j) = c0 j) /\ forall Z i, reg_predict m a c Z i = a0 + bs m (fun j => Z i j * c0 j).
Proof.
  intros inverse n m X y a c a0 c0 HI H Hy. destruct (linear_none_optimal _ _ _ _ _ _ _ HI H) as (Ha & _ & U).
  set (t := fun j => match j with O => a0 | S l => c0 l end).
  assert (R0 : rss n (S m) (insert_ones X) y t = 0).
  { unfold rss. rewrite (bs_ext _ _ (fun _ => 0)); [apply bs_zero|]. intros i Hi. rewrite (Hy i Hi). unfold mvec. rewrite bs_shift. unfold insert_ones, t. ring. }
  assert (E : forall j, (j < S m)%nat -> t j = c j).
  { intros j Hj. apply U; [|exact Hj]. rewrite R0. apply bs_nonneg. intros; apply pow2_ge_0. }
  assert (E0 : a = a0) by (rewrite Ha; symmetry; apply (E O); lia). split; [exact E0|].
  assert (E1 : forall j, (j < m)%nat -> c (S j) = c0 j) by (intros j Hj; symmetry; apply (E (S j)); lia). split; [exact E1|].
  intros Z i. unfold reg_predict, mvec. rewrite (bs_ext m _ (fun j => Z i j * c0 j)); [rewrite E0; ring|]. intros j Hj. rewrite E1 by exact Hj. reflexivity.
Qed.
Print Assumptions linear_recovers.

(** QR: the same coefficients. *)
Lemma linear_qr_normal inverse qr n m X y a c : inverse_ok inverse -> qr_ok n (S m) (insert_ones X) (qr n (S m) (insert_ones X)) -> linear_qr inverse qr n m X y = Fitted a c ->
  a = c O /\ normal n (S m) (insert_ones X) y (fun _ => 0) c.
Proof.
  intros HI HQ H. unfold linear_qr in H. destruct (Nat.ltb_spec n (S m)) as [|L]; [discriminate|]. set (x := insert_ones X) in *.
  destruct (qr n (S m) x) as [q r] eqn:EQ. simpl in HQ. destruct HQ as [Q1 Q2].
  destruct (inverse (S m) r) as [b|] eqn:E; [|discriminate]. destruct (HI _ _ _ E) as [I1 I2].
  assert (Hc : c = mvec n (mmul (S m) b (tr q)) y) by congruence. split; [congruence|].
  assert (RB : forall l, (l < S m)%nat -> mvec (S m) r c l = mvec n (tr q) y l).
  { intros l Hl. rewrite Hc. rewrite (mvec_ext (S m) r _ (mvec (S m) b (mvec n (tr q) y))) by (intros; apply mvec_mmul).
    rewrite <- mvec_mmul. apply mvec_eye; assumption. }
  assert (XC : forall i, (i < n)%nat -> mvec (S m) x c i = mvec (S m) q (mvec n (tr q) y) i).
  { intros i Hi. unfold mvec at 1. rewrite (bs_ext _ _ (fun l => mmul (S m) q r i l * c l)) by (intros l Hl; rewrite Q2 by assumption; reflexivity).
    change (mvec (S m) (mmul (S m) q r) c i = mvec (S m) q (mvec n (tr q) y) i). rewrite mvec_mmul. apply mvec_ext. exact RB. }
  intros j Hj. rewrite Rmult_0_l, mvec_minus.
  rewrite (mvec_ext n (tr x) (mvec (S m) x c) (mvec (S m) q (mvec n (tr q) y)) j XC).
  assert (T : forall w, mvec n (tr x) w j = mvec (S m) (tr r) (mvec n (tr q) w) j).
  { intros w. rewrite <- mvec_mmul. unfold mvec. apply bs_ext. intros i Hi. f_equal. unfold tr at 1. rewrite Q2 by assumption. unfold mmul, tr. apply bs_ext. intros; ring. }
  rewrite !T. rewrite (mvec_ext (S m) (tr r) (mvec n (tr q) (mvec (S m) q (mvec n (tr q) y))) (mvec n (tr q) y)); [ring|].
  intros l Hl. rewrite <- mvec_mmul. apply mvec_eye; assumption.
Qed.
Lemma pen0 n k x y v : penalised n k x y (fun _ => 0) v = rss n k x y v.
Proof. unfold penalised. rewrite (bs_ext _ _ (fun _ => 0)), bs_zero; [ring|]. intros; ring. Qed.

Theorem linear_qr_optimal : forall inverse qr n m X y a c, inverse_ok inverse -> qr_ok n (S m) (insert_ones X) (qr n (S m) (insert_ones X)) ->
  linear_qr inverse qr n m X y = Fitted a c ->
  a = c O /\ forall c', rss n (S m) (insert_ones X) y c <= rss n (S m) (insert_ones X) y c'.
Proof.
  intros inverse qr n m X y a c HI HQ H. destruct (linear_qr_normal _ _ _ _ _ _ _ _ HI HQ H) as (Ha & N). split; [exact Ha|].
  intros c'. rewrite <- !pen0. apply normal_optimal; [intros; lra|exact N].
Qed.
Print Assumptions linear_qr_optimal.

(** SVD. *)
Lemma all_nonzero_spec k s : all_nonzero k s = true -> forall i, (i < k)%nat -> s i <> 0.
Proof.
  induction k as [|k IH]; intros H i Hi; [lia|]. simpl in H. apply andb_prop in H. destruct H as [H1 H2].
  destruct (Nat.eq_dec i k) as [->|]; [|apply IH; [exact H1|lia]]. destruct (Reqb_spec (s k) 0); [discriminate|assumption].
Qed.
Lemma all_nonzero_false k s : all_nonzero k s = false -> exists i, (i < k)%nat /\ s i = 0.
Proof.
  induction k as [|k IH]; intros H; [discriminate|]. simpl in H. apply andb_false_iff in H. destruct H as [H|H].
  - destruct (IH H) as (i & Hi & E). exists i. split; [lia|exact E].
  - exists k. split; [lia|]. destruct (Reqb_spec (s k) 0); [assumption|discriminate].
Qed.
Lemma linear_svd_facts svd n m X y a c : svd_ok n (S m) (insert_ones X) (svd n (S m) (insert_ones X)) -> linear_svd svd n m X y = Fitted a c ->
  a = c O /\ normal n (S m) (insert_ones X) y (fun _ => 0) c /\
  (forall c', rss n (S m) (insert_ones X) y c' = rss n (S m) (insert_ones X) y c -> dotn (S m) c c <= dotn (S m) c' c').
Proof.
  intros HS H. unfold linear_svd in H. set (x := insert_ones X) in *. set (p := Nat.min n (S m)) in *.
  destruct (svd n (S m) x) as [[u s] vt] eqn:E. simpl in HS. destruct HS as (U1 & V1 & V2 & Xe). fold p in U1, V1, Xe.
  destruct (all_nonzero p s) eqn:A; [|discriminate]. pose proof (all_nonzero_spec p s A) as Hs. cbn [negb] in H.
  set (w := fun l => 1 / s l * mvec n (tr u) y l).
  assert (Hc : forall j, c j = mvec p (tr vt) w j).
  { intros j. assert (c = mvec n (mmul p (mmul p (tr vt) (diag (fun i => 1 / s i))) (tr u)) y) by congruence. subst c.
    rewrite mvec_mmul, mvec_mmul. apply mvec_ext. intros l Hl. rewrite mvec_diag by exact Hl. reflexivity. }
  split; [congruence|].
  assert (Xv : forall v i, (i < n)%nat -> mvec (S m) x v i = mvec p u (fun l => s l * mvec (S m) vt v l) i).
  { intros v i Hi. unfold mvec at 1. rewrite (bs_ext _ _ (fun l => mmul p (mmul p u (diag s)) vt i l * v l)) by (intros l Hl; rewrite Xe by assumption; reflexivity).
    change (mvec (S m) (mmul p (mmul p u (diag s)) vt) v i = mvec p u (fun l => s l * mvec (S m) vt v l) i). rewrite !mvec_mmul. apply mvec_ext.
    intros l Hl. apply mvec_diag, Hl. }
  assert (VC : forall l, (l < p)%nat -> mvec (S m) vt c l = w l).
  { intros l Hl. rewrite (mvec_ext (S m) vt c (mvec p (tr vt) w)) by (intros; apply Hc). rewrite <- mvec_mmul. apply mvec_eye; assumption. }
  assert (XC : forall i, (i < n)%nat -> mvec (S m) x c i = mvec p u (mvec n (tr u) y) i).
  { intros i Hi. rewrite Xv by exact Hi. apply mvec_ext. intros l Hl. rewrite VC by exact Hl. unfold w. field. apply Hs, Hl. }
  assert (N : normal n (S m) x y (fun _ => 0) c).
  { intros j Hj. rewrite Rmult_0_l, mvec_minus. rewrite (mvec_ext n (tr x) (mvec (S m) x c) (mvec p u (mvec n (tr u) y)) j XC).
    assert (T : forall v, mvec n (tr x) v j = mvec p (fun j l => vt l j * s l) (mvec n (tr u) v) j).
    { intros v. rewrite <- mvec_mmul. unfold mvec. apply bs_ext. intros i Hi. f_equal. unfold tr at 1. rewrite Xe by assumption. unfold mmul at 1 3. apply bs_ext.
      intros l Hl. unfold tr. assert (Q : mmul p u (diag s) i l = u i l * s l).
      { unfold mmul, diag. rewrite (bs_ext p _ (fun q => if Nat.eqb q l then u i q * s q else 0)); [apply (bs_delta p l (fun q => u i q * s q)), Hl|].
        intros q Hq. destruct (Nat.eqb q l); ring. }
      rewrite Q. ring. }
    rewrite !T. rewrite (mvec_ext p _ (mvec n (tr u) (mvec p u (mvec n (tr u) y))) (mvec n (tr u) y)); [ring|].
    intros l Hl. rewrite <- mvec_mmul. apply mvec_eye; assumption. }
  split; [exact N|]. intros c' Hle. rewrite <- !pen0, (penalised_pythagoras _ _ _ _ _ _ c' N) in Hle.
  rewrite (bs_ext (S m) _ (fun _ => 0)), bs_zero in Hle by (intros; ring). set (h := fun j => c' j - c j) in *.
  assert (P : 0 <= bs n (fun i => mvec (S m) x h i ^ 2)) by (apply bs_nonneg; intros; apply pow2_ge_0).
  assert (Q : forall i, (i < n)%nat -> mvec (S m) x h i = 0).
  { intros i Hi. assert (Q : mvec (S m) x h i ^ 2 = 0) by (apply (bs_zero_inv n (fun i => mvec (S m) x h i ^ 2)); [intros; apply pow2_ge_0|lra|exact Hi]). simpl in Q. nra. }
  assert (V0 : forall l, (l < p)%nat -> mvec (S m) vt h l = 0).
  { intros l Hl. assert (B : mvec n (tr u) (mvec p u (fun l => s l * mvec (S m) vt h l)) l = s l * mvec (S m) vt h l) by (rewrite <- mvec_mmul; apply (mvec_eye p _ (fun l => s l * mvec (S m) vt h l)); assumption).
    rewrite (mvec_ext n (tr u) _ (fun _ => 0)) in B by (intros i Hi; rewrite <- Xv by exact Hi; apply Q, Hi).
    unfold mvec at 1 in B. rewrite (bs_ext n _ (fun _ => 0)), bs_zero in B by (intros; ring). pose proof (Hs l Hl).
    symmetry in B. apply Rmult_integral in B. destruct B; [contradiction|assumption]. }
  assert (O : dotn (S m) c h = 0).
  { unfold dotn. rewrite (bs_ext (S m) _ (fun j => mvec p (tr vt) w j * h j)) by (intros; rewrite Hc; reflexivity).
    change (dotn (S m) (mvec p (tr vt) w) h = 0). rewrite dot_tr. unfold dotn. rewrite (bs_ext p _ (fun _ => 0)); [apply bs_zero|].
    intros l Hl. change (tr (tr vt)) with vt. rewrite V0 by exact Hl. ring. }
  assert (D : dotn (S m) c' c' = dotn (S m) c c + (2 * dotn (S m) c h + dotn (S m) h h)).
  { unfold dotn. rewrite <- bs_scal, <- !bs_plus. apply bs_ext. intros j Hj. unfold h. ring. }
  assert (0 <= dotn (S m) h h) by (apply bs_nonneg; intros; apply Rle_0_sqr). lra.
Qed.

(** SVD: least squares, and of all minimisers the one of least norm. *)
Theorem linear_svd_optimal : forall svd n m X y a c, svd_ok n (S m) (insert_ones X) (svd n (S m) (insert_ones X)) -> linear_svd svd n m X y = Fitted a c ->
  a = c O /\ (forall c', rss n (S m) (insert_ones X) y c <= rss n (S m) (insert_ones X) y c') /\
  (forall c', rss n (S m) (insert_ones X) y c' = rss n (S m) (insert_ones X) y c -> dotn (S m) c c <= dotn (S m) c' c').
Proof.
  intros svd n m X y a c HS H. destruct (linear_svd_facts _ _ _ _ _ _ _ HS H) as (Ha & N & M). split; [exact Ha|]. split; [|exact M].
  intros c'. rewrite <- !pen0. apply normal_optimal; [intros; lra|exact N].
Qed.
Print Assumptions linear_svd_optimal.

(** The three methods agree when they succeed. *)
Theorem linear_methods_agree : forall inverse qr svd n m X y a c a1 c1 a2 c2, inverse_ok inverse -> qr_ok n (S m) (insert_ones X) (qr n (S m) (insert_ones X)) -> svd_ok n (S m) (insert_ones X) (svd n (S m) (insert_ones X)) ->
  linear_none inverse n m X y = Fitted a c -> linear_qr inverse qr n m X y = Fitted a1 c1 -> linear_svd svd n m X y = Fitted a2 c2 ->
  a1 = a /\ a2 = a /\ forall j, (j < S m)%nat -> c1 j = c j /\ c2 j = c j.
Proof.
  intros inverse qr svd n m X y a c a1 c1 a2 c2 HI HQ HS H H1 H2.
  destruct (linear_none_optimal _ _ _ _ _ _ _ HI H) as (Ha & _ & U). destruct (linear_qr_optimal _ _ _ _ _ _ _ _ HI HQ H1) as (Ha1 & O1).
  destruct (linear_svd_optimal _ _ _ _ _ _ _ HS H2) as (Ha2 & O2 & _).
  pose proof (U c1 (O1 c)) as E1. pose proof (U c2 (O2 c)) as E2.
  split; [rewrite Ha1, Ha; apply E1; lia|]. split; [rewrite Ha2, Ha; apply E2; lia|]. intros j Hj. split; [apply E1, Hj|apply E2, Hj].
Qed.
Print Assumptions linear_methods_agree.

(** Finding: with linearly dependent columns the SVD method gives infinite or NaN
    coefficients instead of the error of the other methods. *)
Theorem linear_svd_collinear_refuted : forall inverse svd n m X y h, svd_ok n (S m) (insert_ones X) (svd n (S m) (insert_ones X)) -> inverse_ok inverse -> (S m <= n)%nat ->
  (exists j, (j < S m)%nat /\ h j <> 0) -> (forall i, (i < n)%nat -> mvec (S m) (insert_ones X) h i = 0) ->
  linear_svd svd n m X y = NotFinite /\ linear_none inverse n m X y = FitErr.
Proof.
  intros inverse svd n m X y h HS HI L (j & Hj & Nz) H0. split.
  - unfold linear_svd. rewrite Nat.min_r by exact L. destruct (svd n (S m) (insert_ones X)) as [[u s] vt] eqn:E. destruct (all_nonzero (S m) s) eqn:A; [|reflexivity].
    exfalso.
    simpl in HS. destruct HS as (U1 & V1 & V2 & Xe). rewrite Nat.min_r in U1, V1, Xe by exact L.
    pose proof (all_nonzero_spec _ _ A) as Hs.
    assert (Vh : forall l, (l < S m)%nat -> mvec (S m) vt h l = 0).
    { intros l Hl. assert (Xv : forall i, (i < n)%nat -> mvec (S m) (insert_ones X) h i = mvec (S m) u (fun l => s l * mvec (S m) vt h l) i).
      { intros i Hi. unfold mvec at 1. rewrite (bs_ext _ _ (fun l => mmul (S m) (mmul (S m) u (diag s)) vt i l * h l)) by (intros q Hq; rewrite Xe by assumption; reflexivity).
        change (mvec (S m) (mmul (S m) (mmul (S m) u (diag s)) vt) h i = mvec (S m) u (fun l => s l * mvec (S m) vt h l) i). rewrite !mvec_mmul. apply mvec_ext. intros q Hq. apply mvec_diag, Hq. }
      assert (B : mvec n (tr u) (mvec (S m) u (fun l => s l * mvec (S m) vt h l)) l = s l * mvec (S m) vt h l) by (rewrite <- mvec_mmul; apply (mvec_eye (S m) _ (fun l => s l * mvec (S m) vt h l)); assumption).
      rewrite (mvec_ext n (tr u) _ (fun _ => 0)) in B by (intros i Hi; rewrite <- Xv by exact Hi; apply H0, Hi).
      unfold mvec at 1 in B. rewrite (bs_ext n _ (fun _ => 0)), bs_zero in B by (intros; ring). pose proof (Hs l Hl).
      symmetry in B. apply Rmult_integral in B. destruct B; [contradiction|assumption]. }
    apply Nz. rewrite <- (mvec_eye (S m) _ h j (V2 L) Hj), mvec_mmul. unfold mvec at 1. rewrite (bs_ext _ _ (fun _ => 0)); [apply bs_zero|].
    intros l Hl. rewrite Vh by exact Hl. ring.
  - destruct (linear_none inverse n m X y) as [a c| | |] eqn:E; try reflexivity.
    + exfalso. destruct (linear_none_normal _ _ _ _ _ _ _ HI E) as (_ & _ & U). apply Nz. apply U; [|exact Hj]. intros l Hl. rewrite mvec_mmul.
      rewrite (mvec_ext n _ _ (fun _ => 0)) by (intros i Hi; apply H0, Hi). unfold mvec. rewrite (bs_ext n _ (fun _ => 0)); [apply bs_zero|intros; ring].
    + unfold linear_none in E. destruct (inverse _ _); discriminate.
    + unfold linear_none in E. destruct (inverse _ _); discriminate.
Qed.
Print Assumptions linear_svd_collinear_refuted.

(** ** Ridge *)

(** penalty weights: every coefficient except an intercept *)
Definition weights (fit_intercept : bool) (lambda : R) : vec :=
  fun j => if fit_intercept && Nat.eqb j 0 then 0 else lambda.
Definition design (fit_intercept : bool) (X : mat) : mat := if fit_intercept then insert_ones X else X.
Definition n_coef (fit_intercept : bool) (m : nat) : nat := if fit_intercept then S m else m.
(** the coefficients in the layout of the design matrix *)
Definition own (fit_intercept : bool) (c : vec) : vec := if fit_intercept then c else fun j => c (S j).

Lemma ridge_normal inverse fi lambda n m X y a c : inverse_ok inverse -> ridge inverse fi lambda n m X y = Fitted a c ->
  a = c O /\ (fi = false -> a = 0) /\ normal n (n_coef fi m) (design fi X) y (weights fi lambda) (own fi c).
Proof.
  intros HI H. unfold ridge in H. fold (design fi X) in H. fold (n_coef fi m) in H. set (x := design fi X) in *. set (k := n_coef fi m) in *.
  set (reg := if fi then _ else _) in H. destruct (inverse k _) as [b|] eqn:E; [|discriminate]. destruct (HI _ _ _ E) as [I1 _].
  assert (O : own fi c = mvec n (mmul k b (tr x)) y) by (destruct fi; unfold own; congruence || (assert (c = fun i => match i with O => 0 | S l => mvec n (mmul k b (tr x)) y l end) by congruence; subst c; reflexivity)).
  split; [destruct fi; [congruence|]; assert (c = fun i => match i with O => 0 | S l => mvec n (mmul k b (tr x)) y l end) by congruence; subst c; congruence|].
  split; [intros ->; congruence|]. rewrite O. set (g := mvec n (mmul k b (tr x)) y) in *.
  assert (G : forall j, (j < k)%nat -> mvec k (fun i j => mmul n (tr x) x i j + lambda * reg i j) g j = mvec n (tr x) y j).
  { intros j Hj. unfold g. rewrite (mvec_ext k _ _ (mvec k b (mvec n (tr x) y))) by (intros; apply mvec_mmul). rewrite <- mvec_mmul. apply mvec_eye; assumption. }
  intros j Hj. rewrite mvec_minus, <- (mvec_mmul k n (tr x) x), <- (G j Hj).
  assert (S1 : mvec k (fun i j => mmul n (tr x) x i j + lambda * reg i j) g j = mvec k (mmul n (tr x) x) g j + lambda * mvec k reg g j).
  { unfold mvec. rewrite <- bs_scal, <- bs_plus. apply bs_ext. intros; ring. }
  rewrite S1. assert (S2 : lambda * mvec k reg g j = weights fi lambda j * g j); [|lra].
  assert (RD : forall l, reg j l = diag (weights fi 1) j l).
  { intros l. unfold reg, diag, weights, eye. destruct fi; simpl; [|destruct (Nat.eqb j l); reflexivity].
    destruct (Nat.eqb_spec j 0) as [->|], (Nat.eqb_spec l 0) as [->|]; simpl; try reflexivity; try (destruct l; [contradiction|reflexivity]). }
  unfold mvec. rewrite (bs_ext k _ (fun l => diag (weights fi 1) j l * g l)) by (intros; rewrite RD; reflexivity).
  change (lambda * mvec k (diag (weights fi 1)) g j = weights fi lambda j * g j). rewrite mvec_diag by exact Hj. unfold weights. destruct (fi && Nat.eqb j 0); ring.
Qed.
Lemma weights_nonneg fi lambda j : 0 <= lambda -> 0 <= weights fi lambda j.
Proof. unfold weights. destruct (fi && Nat.eqb j 0); lra. Qed.

(** For a non-negative penalty the fitted coefficients minimise the penalised sum
    of squares, the intercept being free of penalty; without intercept the first
    coefficient is zero. *)
Theorem ridge_optimal : forall inverse fi lambda n m X y a c, inverse_ok inverse -> 0 <= lambda ->
  ridge inverse fi lambda n m X y = Fitted a c ->
  a = c O /\ (fi = false -> a = 0) /\
  forall c', penalised n (n_coef fi m) (design fi X) y (weights fi lambda) (own fi c) <=
             penalised n (n_coef fi m) (design fi X) y (weights fi lambda) c'.
Proof.
  intros inverse fi lambda n m X y a c HI Hl H. destruct (ridge_normal _ _ _ _ _ _ _ _ _ HI H) as (A & B & N). split; [exact A|]. split; [exact B|].
  apply normal_optimal; [intros; apply weights_nonneg, Hl|exact N].
Qed.
Print Assumptions ridge_optimal.

(** A positive penalty on every coefficient makes the minimiser unique. *)
Theorem ridge_unique : forall inverse lambda n m X y a c c', inverse_ok inverse -> 0 < lambda ->
  ridge inverse false lambda n m X y = Fitted a c ->
  penalised n m X y (fun _ => lambda) c' <= penalised n m X y (fun _ => lambda) (own false c) ->
  forall j, (j < m)%nat -> c' j = c (S j).
Proof.
  intros inverse lambda n m X y a c c' HI Hl H Hle j Hj. destruct (ridge_normal _ _ _ _ _ _ _ _ _ HI H) as (_ & _ & N).
  change (normal n m X y (fun _ => lambda) (own false c)) in N. rewrite (penalised_pythagoras _ _ _ _ _ _ c' N) in Hle.
  assert (0 <= bs n (fun i => mvec m X (fun j => c' j - own false c j) i ^ 2)) by (apply bs_nonneg; intros; apply pow2_ge_0).
  assert (P : forall j, (j < m)%nat -> 0 <= lambda * (c' j - own false c j) ^ 2) by (intros; apply Rmult_le_pos; [lra|apply pow2_ge_0]).
  assert (Q : lambda * (c' j - own false c j) ^ 2 = 0).
  { apply (bs_zero_inv m (fun j => lambda * (c' j - own false c j) ^ 2)); [exact P| |exact Hj]. pose proof (bs_nonneg m _ P). lra. }
  apply Rmult_integral in Q. destruct Q as [Q|Q]; [lra|]. unfold own in Q. simpl in Q. nra.
Qed.
Print Assumptions ridge_unique.

(** A larger penalty never gives larger coefficients nor a better fit. *)
Theorem ridge_shrinks : forall inverse fi l1 l2 n m X y a1 c1 a2 c2, inverse_ok inverse -> 0 <= l1 -> l1 < l2 ->
  ridge inverse fi l1 n m X y = Fitted a1 c1 -> ridge inverse fi l2 n m X y = Fitted a2 c2 ->
  bs m (fun j => c2 (S j) ^ 2) <= bs m (fun j => c1 (S j) ^ 2) /\
  rss n (n_coef fi m) (design fi X) y (own fi c1) <= rss n (n_coef fi m) (design fi X) y (own fi c2).
Proof.
  intros inverse fi l1 l2 n m X y a1 c1 a2 c2 HI H0 H12 E1 E2.
  destruct (ridge_optimal _ _ _ _ _ _ _ _ _ HI H0 E1) as (_ & _ & O1). destruct (ridge_optimal _ _ l2 _ _ _ _ _ _ HI ltac:(lra) E2) as (_ & _ & O2).
  specialize (O1 (own fi c2)). specialize (O2 (own fi c1)). unfold penalised in O1, O2.
  assert (P : forall l c, bs (n_coef fi m) (fun j => weights fi l j * own fi c j ^ 2) = l * bs m (fun j => c (S j) ^ 2)).
  { intros l c. rewrite <- bs_scal. destruct fi; simpl n_coef; [|reflexivity]. rewrite bs_shift. unfold weights, own. simpl. ring. }
  rewrite !P in O1, O2. set (p1 := bs m (fun j => c1 (S j) ^ 2)) in *. set (p2 := bs m (fun j => c2 (S j) ^ 2)) in *.
  assert (p2 <= p1) by nra. split; [assumption|nra].
Qed.
Print Assumptions ridge_shrinks.

(** With no penalty and an intercept, ridge is linear regression. *)
Theorem ridge_zero_is_linear : forall inverse n m X y a c a' c', inverse_ok inverse ->
  ridge inverse true 0 n m X y = Fitted a c -> linear_none inverse n m X y = Fitted a' c' ->
  a = a' /\ forall j, (j < S m)%nat -> c j = c' j.
Proof.
  intros inverse n m X y a c a' c' HI H H'. destruct (ridge_optimal _ _ _ _ _ _ _ _ _ HI (Rle_refl 0) H) as (A & _ & O).
  destruct (linear_none_optimal _ _ _ _ _ _ _ HI H') as (A' & _ & U).
  assert (E : forall j, (j < S m)%nat -> c j = c' j).
  { apply U. specialize (O c'). unfold penalised in O. simpl n_coef in O. simpl design in O. simpl own in O.
    rewrite !(bs_ext (S m) (fun j => weights true 0 j * _) (fun _ => 0)), !bs_zero in O by (intros j Hj; unfold weights; destruct (true && Nat.eqb j 0); ring). lra. }
  split; [rewrite A, A'; apply E; lia|exact E].
Qed.
Print Assumptions ridge_zero_is_linear.

(** ** Concrete data meeting the hypotheses *)

(** inverses of matrices of size one and two *)
Definition inv12 (k : nat) (A : mat) : option mat :=
  match k with
  | 1%nat => if Reqb (A 0%nat 0%nat) 0 then None else Some (fun _ _ => 1 / A 0%nat 0%nat)
  | 2%nat => let d := A 0%nat 0%nat * A 1%nat 1%nat - A 0%nat 1%nat * A 1%nat 0%nat in
             if Reqb d 0 then None else
             Some (fun i j => match i, j with
                              | O, O => A 1%nat 1%nat / d | O, _ => - A 0%nat 1%nat / d
                              | _, O => - A 1%nat 0%nat / d | _, _ => A 0%nat 0%nat / d end)
  | _ => None
  end.
Lemma inv12_ok : inverse_ok inv12.
Proof.
  intros [|[|[|k]]] A B H; try discriminate; simpl in H.
  - destruct (Reqb_spec (A 0%nat 0%nat) 0); [discriminate|]. assert (B = fun _ _ => 1 / A 0%nat 0%nat) by congruence. subst B.
    split; intros i j Hi Hj; replace i with 0%nat by lia; replace j with 0%nat by lia; unfold mmul, eye; simpl; field; assumption.
  - set (d := A 0%nat 0%nat * A 1%nat 1%nat - A 0%nat 1%nat * A 1%nat 0%nat) in *. destruct (Reqb_spec d 0); [discriminate|].
    injection H as <-. unfold d in n.
    split; intros [|[|i]] [|[|j]] Hi Hj; try lia; unfold mmul, eye; simpl; unfold d; field; exact n.
Qed.
(** y = 1 + 2 x on x = 0, 1, 2 *)
Definition line_x : mat := fun i _ => INR i.
Definition line_y : vec := fun i => 1 + 2 * INR i.
Example line_fit : exists a c, linear_none inv12 3 1 line_x line_y = Fitted a c /\ a = 1 /\ c 1%nat = 2.
Proof.
  assert (E : exists b, inv12 2 (mmul 3 (tr (insert_ones line_x)) (insert_ones line_x)) = Some b).
  { unfold inv12. cbv zeta. match goal with |- context [Reqb ?d 0] => destruct (Reqb_spec d 0) as [H|H] end; [|eauto]. exfalso. unfold mmul, tr, insert_ones, line_x in H. simpl in H. lra. }
  destruct E as [b E].
  assert (F : exists a c, linear_none inv12 3 1 line_x line_y = Fitted a c) by (unfold linear_none; rewrite E; eauto).
  destruct F as (a & c & F). exists a, c. split; [exact F|].
  destruct (linear_recovers inv12 3 1 line_x line_y a c 1 (fun _ => 2) inv12_ok F) as (Ea & Ec & _).
  - intros i Hi. unfold line_y, line_x. simpl. ring.
  - split; [exact Ea|apply Ec; lia].
Qed.
Example line_ridge : exists a c, ridge inv12 true 1 3 1 line_x line_y = Fitted a c.
Proof.
  unfold ridge, inv12. cbv zeta. match goal with |- context [Reqb ?d 0] => destruct (Reqb_spec d 0) as [H|H] end; [|eauto]. exfalso. unfold mmul, tr, insert_ones, line_x, eye in H. simpl in H. lra.
Qed.

(** four samples, intercept only: the design matrix is a column of four ones *)
Example qr_case : qr_ok 4 1 (insert_ones line_x) (fun _ _ => 1 / 2, fun _ _ => 2).
Proof.
  split.
  - intros i j Hi Hj. replace i with 0%nat by lia. replace j with 0%nat by lia. unfold mmul, tr, eye. simpl. field.
  - intros i j Hi Hj. replace j with 0%nat by lia. unfold mmul, insert_ones. simpl. field.
Qed.
Example svd_case : svd_ok 4 1 (insert_ones line_x) (fun _ _ => 1 / 2, fun _ => 2, fun _ _ => 1).
Proof.
  assert (E : Nat.min 4 1 = 1%nat) by reflexivity. unfold svd_ok. rewrite E. split; [|split; [|split]].
  - intros i j Hi Hj. replace i with 0%nat by lia. replace j with 0%nat by lia. unfold mmul, tr, eye. simpl. field.
  - intros i j Hi Hj. replace i with 0%nat by lia. replace j with 0%nat by lia. unfold mmul, tr, eye. simpl. field.
  - intros _ i j Hi Hj. replace i with 0%nat by lia. replace j with 0%nat by lia. unfold mmul, tr, eye. simpl. field.
  - intros i j Hi Hj. replace j with 0%nat by lia. unfold mmul, insert_ones, diag. simpl. field.
Qed.
Example methods_case : exists a c a1 c1 a2 c2, linear_none inv12 4 0 line_x line_y = Fitted a c /\
  linear_qr inv12 (fun _ _ _ => (fun _ _ => 1 / 2, fun _ _ => 2)) 4 0 line_x line_y = Fitted a1 c1 /\
  linear_svd (fun _ _ _ => (fun _ _ => 1 / 2, fun _ => 2, fun _ _ => 1)) 4 0 line_x line_y = Fitted a2 c2 /\ a1 = a /\ a2 = a /\ a = 4.
Proof.
  assert (F : exists a c, linear_none inv12 4 0 line_x line_y = Fitted a c /\ a = 4).
  { unfold linear_none, inv12. match goal with |- context [Reqb ?d 0] => destruct (Reqb_spec d 0) as [H|H] end.
    - exfalso. unfold mmul, tr, insert_ones in H. simpl in H. lra.
    - eexists; eexists; split; [reflexivity|]. unfold mvec, tr, mmul, insert_ones, line_y. simpl. field. }
  destruct F as (a & c & F & Ea).
  assert (G : exists a c, linear_qr inv12 (fun _ _ _ => (fun _ _ => 1 / 2, fun _ _ => 2)) 4 0 line_x line_y = Fitted a c).
  { unfold linear_qr, inv12. simpl. destruct (Reqb_spec 2 0); [lra|eauto]. }
  destruct G as (a1 & c1 & G).
  assert (K : exists a c, linear_svd (fun _ _ _ => (fun _ _ => 1 / 2, fun _ => 2, fun _ _ => 1)) 4 0 line_x line_y = Fitted a c).
  { unfold linear_svd. simpl. destruct (Reqb_spec 2 0); [lra|]. simpl. eauto. }
  destruct K as (a2 & c2 & K). exists a, c, a1, c1, a2, c2. split; [exact F|]. split; [exact G|]. split; [exact K|].
  destruct (linear_methods_agree _ _ _ _ _ _ _ _ _ _ _ _ _ inv12_ok qr_case svd_case F G K) as (E1 & E2 & _). auto.
Qed.
