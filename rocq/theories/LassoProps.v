(** C49: lasso coordinate descent. *)
From Coq Require Import Reals PeanoNat Bool Lra Lia Psatz.
From Verif Require Import Res InterpModel InterpProofs MatLib ActModel RegModel.
Open Scope R_scope.

(** ** The objective *)
(** (1/2n) |y - X c|^2 + lambda * sum |c_j| *)
Definition lasso_obj (n m : nat) (lambda : R) (X : mat) (y c : vec) : R :=
  bs n (fun i => (y i - mvec m X c i) ^ 2) / (2 * INR n) + lambda * bs m (fun j => Rabs (c j)).
(** the residual kept by the algorithm is that of its coefficients *)
Definition consistent (n m : nat) (X : mat) (y : vec) (c r : vec) : Prop :=
  forall i, (i < n)%nat -> r i = y i - mvec m X c i.

(** one-dimensional problem  a/2 t^2 - rho t + lambda |t| *)
Lemma soft_min a rho lambda t : 0 < a -> 0 <= lambda -> let s := soft lambda a rho in
  (a / 2 * s ^ 2 - rho * s + lambda * Rabs s) + a / 2 * (t - s) ^ 2 <= a / 2 * t ^ 2 - rho * t + lambda * Rabs t.
Proof.
  intros Ha Hl s. assert (At : Rabs t >= t /\ Rabs t >= - t) by (unfold Rabs; destruct (Rcase_abs t); lra).
  unfold s, soft. destruct (Rltb_spec rho (- lambda)) as [H|H]; [|destruct (Rltb_spec lambda rho) as [G|G]].
  - assert (E : a * ((rho + lambda) / a) = rho + lambda) by (field; lra). set (q := (rho + lambda) / a) in *. clearbody q.
    assert (q < 0) by (apply Rmult_lt_reg_l with a; lra). rewrite (Rabs_left q) by assumption. nra.
  - assert (E : a * ((rho - lambda) / a) = rho - lambda) by (field; lra). set (q := (rho - lambda) / a) in *. clearbody q.
    assert (0 < q) by (apply Rmult_lt_reg_l with a; lra). rewrite (Rabs_right q) by lra. nra.
  - rewrite Rabs_R0. assert (rho * t <= lambda * Rabs t); [|nra]. unfold Rabs. destruct (Rcase_abs t); nra.
Qed.

Section Coord.
Variables (n m : nat) (lambda : R) (X : mat) (y : vec).
Hypothesis n_pos : (0 < n)%nat.
Hypothesis lambda_nonneg : 0 <= lambda.

Let np : 0 < INR n. Proof. apply lt_0_INR, n_pos. Qed.
Definition cnorm (j : nat) : R := dotn n (col X j) (col X j).
Lemma cnorm_nonneg j : 0 <= cnorm j.
Proof. apply bs_nonneg. intros. apply Rle_0_sqr. Qed.

Lemma mvec_upd c j t i : (j < m)%nat -> mvec m X (upd c j t) i = mvec m X c i + X i j * (t - c j).
Proof. intros Hj. unfold mvec. rewrite (bs_upd m (fun l v => X i l * v) c j t Hj). ring. Qed.

(** objective as a function of one coordinate *)
Lemma obj_upd c r j t : (j < m)%nat -> consistent n m X y c r ->
  lasso_obj n m lambda X y (upd c j t) = lasso_obj n m lambda X y c +
   ((cnorm j / INR n / 2 * t ^ 2 - (dotn n r (col X j) + c j * cnorm j) / INR n * t + lambda * Rabs t) -
    (cnorm j / INR n / 2 * c j ^ 2 - (dotn n r (col X j) + c j * cnorm j) / INR n * c j + lambda * Rabs (c j))).
Proof.
  intros Hj C. unfold lasso_obj. rewrite (bs_upd m (fun _ v => Rabs v) c j t Hj).
  assert (E : bs n (fun i => (y i - mvec m X (upd c j t) i) ^ 2) =
    bs n (fun i => (y i - mvec m X c i) ^ 2) + ((t - c j) ^ 2 * cnorm j + -2 * (t - c j) * dotn n r (col X j))).
  { unfold cnorm, dotn. rewrite <- !bs_scal, <- !bs_plus. apply bs_ext. intros i Hi. rewrite mvec_upd by exact Hj. rewrite (C i Hi). unfold col. ring. }
  rewrite E. pose proof np. field. lra.
Qed.

Lemma coord_consistent s j : (j < m)%nat -> consistent n m X y (lc s) (lr s) ->
  consistent n m X y (lc (lasso_coord n lambda X s j)) (lr (lasso_coord n lambda X s j)).
Proof.
  intros Hj C i Hi. unfold lasso_coord. simpl. rewrite mvec_upd by exact Hj. set (d := soft _ _ _ - lc s j).
  destruct (Rltb_spec 0 (Rabs d)) as [H|H].
  - rewrite (C i Hi). unfold col, d. ring.
  - assert (d = 0) by (destruct (Req_dec d 0); [assumption|]; exfalso; apply H; apply Rabs_pos_lt; assumption).
    rewrite (C i Hi), H0. ring.
Qed.

(** a coordinate step reaches the minimum over that coordinate, and the gain is
    at least quadratic in the step *)
Lemma zero_col j : cnorm j = 0 -> forall i, (i < n)%nat -> X i j = 0.
Proof.
  intros H i Hi. assert (E : X i j * X i j = 0) by (apply (bs_zero_inv n (fun i => X i j * X i j)); [intros; apply Rle_0_sqr|exact H|exact Hi]). nra.
Qed.
Lemma coord_gain s j t : (j < m)%nat -> consistent n m X y (lc s) (lr s) ->
  let s' := lasso_coord n lambda X s j in
  lasso_obj n m lambda X y (lc s') + cnorm j / INR n / 2 * (t - lc s' j) ^ 2 <= lasso_obj n m lambda X y (upd (lc s) j t).
Proof.
  intros Hj C s'. unfold s', lasso_coord. cbn [lc]. fold (cnorm j). set (rho := (dotn n (lr s) (col X j) + lc s j * cnorm j) / INR n).
  rewrite !(obj_upd (lc s) (lr s)) by assumption. fold rho. unfold upd at 1. rewrite Nat.eqb_refl.
  pose proof np. pose proof (cnorm_nonneg j) as [P|Z].
  - assert (0 < cnorm j / INR n) by (apply Rdiv_lt_0_compat; assumption). pose proof (soft_min (cnorm j / INR n) rho lambda t H0 lambda_nonneg) as S. cbv zeta in S. lra.
  - assert (D : dotn n (lr s) (col X j) = 0).
    { unfold dotn. rewrite (bs_ext n _ (fun _ => 0)); [apply bs_zero|]. intros i Hi. unfold col. rewrite (zero_col j (eq_sym Z) i Hi). ring. }
    assert (R0 : rho = 0) by (unfold rho; rewrite D, <- Z; field; lra). rewrite <- Z, R0.
    assert (S0 : soft lambda (0 / INR n) 0 = 0) by (unfold soft; destruct (Rltb_spec 0 (- lambda)); [lra|destruct (Rltb_spec lambda 0); [lra|reflexivity]]).
    rewrite S0, Rabs_R0. unfold Rdiv. rewrite !Rmult_0_l. pose proof (Rabs_pos t). nra.
Qed.
Lemma upd_same c j : forall i, upd c j (c j) i = c i.
Proof. intros i. unfold upd. destruct (Nat.eqb_spec i j); congruence. Qed.
Lemma obj_ext c c' : (forall j, (j < m)%nat -> c j = c' j) -> lasso_obj n m lambda X y c = lasso_obj n m lambda X y c'.
Proof.
  intros H. unfold lasso_obj. f_equal; [f_equal; apply bs_ext; intros i Hi; rewrite (mvec_ext m X c c' i H); reflexivity|].
  f_equal. apply bs_ext. intros j Hj. rewrite (H j Hj). reflexivity.
Qed.
Lemma coord_descends s j : (j < m)%nat -> consistent n m X y (lc s) (lr s) ->
  let s' := lasso_coord n lambda X s j in
  lasso_obj n m lambda X y (lc s') + cnorm j / INR n / 2 * (lc s j - lc s' j) ^ 2 <= lasso_obj n m lambda X y (lc s).
Proof.
  intros Hj C s'. eapply Rle_trans; [apply coord_gain; assumption|]. right. apply obj_ext. intros l Hl. apply upd_same.
Qed.

(** ** A sweep *)
Lemma sweep_facts : forall k s, (k <= m)%nat -> consistent n m X y (lc s) (lr s) -> 0 <= lmax s ->
  let s' := lasso_sweep n lambda X k s in
  consistent n m X y (lc s') (lr s') /\ lmax s <= lmax s' /\
  lasso_obj n m lambda X y (lc s') <= lasso_obj n m lambda X y (lc s) /\
  (forall j, (k <= j)%nat -> lc s' j = lc s j) /\
  (forall j, (j < k)%nat -> Rabs (lc s' j - lc s j) <= lmax s').
Proof.
  induction k as [|k IH]; intros s Hk C P; cbv zeta; cbn [lasso_sweep].
  - repeat split; auto; try lra. intros; lia.
  - destruct (IH s) as (C1 & M1 & D1 & F1 & B1); [lia|exact C|exact P|]. set (s1 := lasso_sweep n lambda X k s) in *.
    split; [apply coord_consistent; [lia|exact C1]|]. split; [|split; [|split]].
    + unfold lasso_coord. simpl. eapply Rle_trans; [exact M1|apply Rmax_l].
    + pose proof (coord_descends s1 k ltac:(lia) C1) as D. cbv zeta in D.
      assert (0 <= cnorm k / INR n / 2 * (lc s1 k - lc (lasso_coord n lambda X s1 k) k) ^ 2).
      { apply Rmult_le_pos; [|apply pow2_ge_0]. pose proof (cnorm_nonneg k). pose proof np. apply Rmult_le_pos; [apply Rmult_le_pos; [assumption|left; apply Rinv_0_lt_compat; assumption]|lra]. }
      lra.
    + intros j Hj. unfold lasso_coord. simpl. unfold upd. destruct (Nat.eqb_spec j k); [lia|]. apply F1. lia.
    + intros j Hj. destruct (Nat.eq_dec j k) as [->|].
      * unfold lasso_coord. simpl. unfold upd. rewrite Nat.eqb_refl, <- (F1 k) by lia. apply Rmax_r.
      * assert (L : lc (lasso_coord n lambda X s1 k) j = lc s1 j) by (unfold lasso_coord; simpl; unfold upd; destruct (Nat.eqb_spec j k); [lia|reflexivity]).
        rewrite L. eapply Rle_trans; [apply B1; lia|]. unfold lasso_coord. simpl. apply Rmax_l.
Qed.

(** in a sweep that moved by [lmax], the objective fell by a square of it *)
Lemma sweep_gain (a : R) : (forall j, (j < m)%nat -> a <= cnorm j / INR n) -> 0 <= a -> forall k s, (k <= m)%nat ->
  consistent n m X y (lc s) (lr s) -> lmax s = 0 -> let s' := lasso_sweep n lambda X k s in
  lasso_obj n m lambda X y (lc s') + a / 2 * (lmax s') ^ 2 <= lasso_obj n m lambda X y (lc s).
Proof.
  intros Ha Pa. induction k as [|k IH]; intros s Hk C M0; cbv zeta; cbn [lasso_sweep].
  - rewrite M0. lra.
  - specialize (IH s ltac:(lia) C M0). destruct (sweep_facts k s ltac:(lia) C ltac:(lra)) as (C1 & M1 & _). set (s1 := lasso_sweep n lambda X k s) in *.
    pose proof (coord_descends s1 k ltac:(lia) C1) as D. cbv zeta in D. set (s2 := lasso_coord n lambda X s1 k) in *.
    assert (L : lmax s2 = Rmax (lmax s1) (Rabs (lc s2 k - lc s1 k))) by (unfold s2, lasso_coord; simpl; unfold upd; rewrite Nat.eqb_refl; reflexivity).
    set (d := lc s2 k - lc s1 k) in *. replace (lc s1 k - lc s2 k) with (- d) in D by (unfold d; ring).
    assert (Hd : a / 2 * d ^ 2 <= cnorm k / INR n / 2 * d ^ 2) by (apply Rmult_le_compat_r; [apply pow2_ge_0|specialize (Ha k ltac:(lia)); lra]).
    assert (Q : lmax s2 ^ 2 <= lmax s1 ^ 2 + d ^ 2).
    { rewrite L. unfold Rmax. destruct (Rle_dec (lmax s1) (Rabs d)).
      - rewrite <- (Rsqr_pow2 (Rabs d)), <- Rsqr_abs, Rsqr_pow2. pose proof (pow2_ge_0 (lmax s1)). lra.
      - pose proof (pow2_ge_0 d). lra. }
    nra.
Qed.

Lemma loop_facts tol : forall k c r, consistent n m X y c r -> let p := lasso_loop k n m lambda tol X c r in
  consistent n m X y (fst p) (snd p) /\ lasso_obj n m lambda X y (fst p) <= lasso_obj n m lambda X y c.
Proof.
  induction k as [|k IH]; intros c r C; simpl; [split; [exact C|lra]|].
  destruct (sweep_facts m {| lc := c; lr := r; lmax := 0 |} (le_n m) C (Rle_refl 0)) as (C1 & _ & D1 & _). set (s := lasso_sweep n lambda X m _) in *. simpl in D1.
  destruct (Rltb (lmax s) tol); [simpl; split; assumption|]. destruct (IH (lc s) (lr s) C1) as [C2 D2]. split; [exact C2|lra].
Qed.

(** ** Optimality *)
(** subgradient condition for one coordinate *)
Definition kkt_at (c g : R) : Prop := Rabs g <= lambda /\ (0 < c -> g = lambda) /\ (c < 0 -> g = - lambda).

Lemma near_kkt_optimal c r (e : vec) : consistent n m X y c r ->
  (forall j, (j < m)%nat -> exists g, kkt_at (c j) g /\ Rabs (dotn n r (col X j) / INR n - g) <= e j) ->
  forall c', lasso_obj n m lambda X y c <= lasso_obj n m lambda X y c' + bs m (fun j => e j * Rabs (c' j - c j)).
Proof.
  intros C K c'. unfold lasso_obj. set (h := fun j => c' j - c j). pose proof np as P.
  assert (A : bs n (fun i => (y i - mvec m X c' i) ^ 2) = bs n (fun i => (y i - mvec m X c i) ^ 2) + (bs n (fun i => mvec m X h i ^ 2) + -2 * dotn n (mvec m X h) r)).
  { unfold dotn. rewrite <- bs_scal, <- !bs_plus. apply bs_ext. intros i Hi. unfold h. rewrite mvec_minus, (C i Hi). ring. }
  assert (B : dotn n (mvec m X h) r = INR n * bs m (fun j => h j * (dotn n r (col X j) / INR n))).
  { rewrite dot_tr, <- bs_scal. unfold dotn at 1. apply bs_ext. intros j Hj. unfold mvec, tr, dotn, col. rewrite (bs_ext n (fun l => X l j * r l) (fun l => r l * X l j)) by (intros; ring). field. lra. }
  assert (D : bs m (fun j => h j * (dotn n r (col X j) / INR n)) <= (lambda * bs m (fun j => Rabs (c' j)) - lambda * bs m (fun j => Rabs (c j))) + bs m (fun j => e j * Rabs (c' j - c j))).
  { rewrite <- !bs_scal, <- bs_minus, <- bs_plus. apply bs_le. intros j Hj. destruct (K j Hj) as (q & (K1 & K2 & K3) & Ke). set (g := dotn n r (col X j) / INR n) in *.
    assert (G1 : c' j * q <= lambda * Rabs (c' j)).
    { eapply Rle_trans; [apply Rle_abs|]. rewrite Rabs_mult, Rmult_comm. apply Rmult_le_compat_r; [apply Rabs_pos|exact K1]. }
    assert (G2 : c j * q = lambda * Rabs (c j)).
    { destruct (Rtotal_order (c j) 0) as [L|[E|G]]; [rewrite (K3 L), Rabs_left by exact L; ring|rewrite E, Rabs_R0; ring|rewrite (K2 G), Rabs_right by lra; ring]. }
    assert (G3 : h j * (g - q) <= e j * Rabs (c' j - c j)).
    { eapply Rle_trans; [apply Rle_abs|]. rewrite Rabs_mult, Rmult_comm. apply Rmult_le_compat_r; [apply Rabs_pos|exact Ke]. }
    unfold h in *. lra. }
  assert (0 <= bs n (fun i => mvec m X h i ^ 2)) by (apply bs_nonneg; intros; apply pow2_ge_0).
  rewrite A, B. set (s1 := bs m (fun j => h j * (dotn n r (col X j) / INR n))) in *. set (s0 := bs n (fun i => (y i - mvec m X c i) ^ 2)).
  replace ((s0 + (bs n (fun i => mvec m X h i ^ 2) + -2 * (INR n * s1))) / (2 * INR n)) with (s0 / (2 * INR n) + bs n (fun i => mvec m X h i ^ 2) / (2 * INR n) - s1) by (field; lra).
  assert (0 <= bs n (fun i => mvec m X h i ^ 2) / (2 * INR n)) by (apply Rmult_le_pos; [assumption|left; apply Rinv_0_lt_compat; lra]). lra.
Qed.

(** right after its update, a coordinate satisfies its condition *)
Lemma coord_dot s l j : dotn n (lr (lasso_coord n lambda X s l)) (col X j) =
  dotn n (lr s) (col X j) - (lc (lasso_coord n lambda X s l) l - lc s l) * dotn n (col X l) (col X j).
Proof.
  unfold lasso_coord. cbn [lc lr]. unfold upd. rewrite Nat.eqb_refl. set (d := soft _ _ _ - lc s l). destruct (Rltb_spec 0 (Rabs d)).
  - unfold dotn. rewrite <- bs_scal, <- bs_minus. apply bs_ext. intros. ring.
  - assert (d = 0) by (destruct (Req_dec d 0) as [|E]; [assumption|]; apply Rabs_pos_lt in E; contradiction). rewrite H. ring.
Qed.
Lemma coord_kkt s j : let s' := lasso_coord n lambda X s j in kkt_at (lc s' j) (dotn n (lr s') (col X j) / INR n).
Proof.
  intros s'. unfold s'. rewrite coord_dot. fold (cnorm j). unfold lasso_coord. cbn [lc]. unfold upd. rewrite Nat.eqb_refl. fold (cnorm j).
  set (g := dotn n (lr s) (col X j)) in *. set (c := lc s j) in *. pose proof np as P.
  pose proof (cnorm_nonneg j) as [Q|Z].
  - set (rho := (g + c * cnorm j) / INR n). set (b := soft lambda (cnorm j / INR n) rho).
    assert (E : (g - (b - c) * cnorm j) / INR n = rho - b * (cnorm j / INR n)) by (unfold rho; field; lra). rewrite E. clear E.
    assert (0 < cnorm j / INR n) by (apply Rdiv_lt_0_compat; assumption). set (a := cnorm j / INR n) in *. clearbody a.
    unfold b, soft. clearbody rho. assert (IH : forall u, u / a * a = u) by (intros u; field; lra). unfold kkt_at.
    destruct (Rltb_spec rho (- lambda)); [|destruct (Rltb_spec lambda rho)]; rewrite ?IH.
    + replace (rho - (rho + lambda)) with (- lambda) by ring. rewrite Rabs_Ropp, (Rabs_right lambda) by lra.
      assert ((rho + lambda) / a < 0) by (apply Rmult_lt_reg_r with a; rewrite ?IH; lra). repeat split; intros; lra.
    + replace (rho - (rho - lambda)) with lambda by ring. rewrite (Rabs_right lambda) by lra.
      assert (0 < (rho - lambda) / a) by (apply Rdiv_lt_0_compat; lra). repeat split; intros; lra.
    + split; [apply Rabs_le; lra|split; intros; lra].
  - assert (D : g = 0).
    { unfold g, dotn. rewrite (bs_ext n _ (fun _ => 0)); [apply bs_zero|]. intros i Hi. unfold col. rewrite (zero_col j (eq_sym Z) i Hi). ring. }
    rewrite D, <- Z. replace ((0 + c * 0) / INR n) with 0 by (field; lra).
    assert (S0 : soft lambda (0 / INR n) 0 = 0) by (unfold soft; destruct (Rltb_spec 0 (- lambda)); [lra|destruct (Rltb_spec lambda 0); [lra|reflexivity]]).
    rewrite S0. replace ((0 - (0 - c) * 0) / INR n) with 0 by (field; lra). unfold kkt_at. rewrite Rabs_R0. repeat split; intros; lra.
Qed.
(** correlation of column j with the first k columns *)
Definition overlap (k j : nat) : R := bs k (fun l => Rabs (dotn n (col X l) (col X j))) / INR n.
Lemma sweep_kkt : forall k s, (k <= m)%nat -> 0 <= lmax s -> let s' := lasso_sweep n lambda X k s in
  lmax s <= lmax s' /\
  forall j, (j < k)%nat -> exists g, kkt_at (lc s' j) g /\ Rabs (dotn n (lr s') (col X j) / INR n - g) <= lmax s' * overlap k j.
Proof.
  induction k as [|k IH]; intros s Hk M0; cbv zeta; cbn [lasso_sweep]; [split; [lra|intros; lia]|].
  destruct (IH s ltac:(lia) M0) as (M1 & K). set (s1 := lasso_sweep n lambda X k s) in *. set (s2 := lasso_coord n lambda X s1 k) in *.
  assert (L : lmax s2 = Rmax (lmax s1) (Rabs (lc s2 k - lc s1 k))) by (unfold s2, lasso_coord; simpl; unfold upd; rewrite Nat.eqb_refl; reflexivity).
  assert (L1 : lmax s1 <= lmax s2) by (rewrite L; apply Rmax_l). assert (L2 : Rabs (lc s2 k - lc s1 k) <= lmax s2) by (rewrite L; apply Rmax_r).
  split; [lra|]. pose proof np as P. intros j Hj. destruct (Nat.eq_dec j k) as [->|Nk].
  - exists (dotn n (lr s2) (col X k) / INR n). split; [apply coord_kkt|]. unfold Rminus. rewrite Rplus_opp_r, Rabs_R0.
    apply Rmult_le_pos; [lra|]. unfold overlap. apply Rmult_le_pos; [apply bs_nonneg; intros; apply Rabs_pos|left; apply Rinv_0_lt_compat, P].
  - destruct (K j ltac:(lia)) as (g & Kg & Ke). exists g.
    assert (Ec : lc s2 j = lc s1 j) by (unfold s2, lasso_coord; simpl; unfold upd; destruct (Nat.eqb_spec j k); [contradiction|reflexivity]).
    rewrite Ec. split; [exact Kg|]. unfold s2 at 1. rewrite coord_dot. fold s2. set (q := dotn n (col X k) (col X j)).
    replace ((dotn n (lr s1) (col X j) - (lc s2 k - lc s1 k) * q) / INR n - g) with ((dotn n (lr s1) (col X j) / INR n - g) + - ((lc s2 k - lc s1 k) * (q / INR n))) by (field; lra).
    eapply Rle_trans; [apply Rabs_triang|]. rewrite Rabs_Ropp, Rabs_mult.
    assert (E : overlap (S k) j = overlap k j + Rabs (q / INR n)).
    { unfold overlap. cbn [bs]. fold q. unfold Rdiv. rewrite Rabs_mult, (Rabs_right (/ INR n)) by (left; apply Rinv_0_lt_compat, P). ring. }
    rewrite E. assert (0 <= overlap k j) by (unfold overlap; apply Rmult_le_pos; [apply bs_nonneg; intros; apply Rabs_pos|left; apply Rinv_0_lt_compat, P]).
    pose proof (Rabs_pos (q / INR n)). rewrite Rmult_plus_distr_l. apply Rplus_le_compat; [eapply Rle_trans; [exact Ke|]; apply Rmult_le_compat_r; assumption|].
    apply Rmult_le_compat_r; assumption.
Qed.
End Coord.

(** ** The algorithm *)

(** The residual the loop maintains is y - X c, and neither a sweep nor a longer
    run ever increases the objective. *)
Theorem lasso_loop_sound : forall k n m lambda tol X y, (0 < n)%nat -> 0 <= lambda ->
  let p := lasso_loop k n m lambda tol X (fun _ => 0) y in
  (forall i, (i < n)%nat -> snd p i = y i - bs m (fun j => X i j * fst p j)) /\
  lasso_obj n m lambda X y (fst p) <= lasso_obj n m lambda X y (fun _ => 0) /\
  lasso_obj n m lambda X y (fst (lasso_loop (S k) n m lambda tol X (fun _ => 0) y)) <= lasso_obj n m lambda X y (fst p).
Proof.
  intros k n m lambda tol X y Hn Hl p.
  assert (C0 : consistent n m X y (fun _ => 0) y) by (intros i Hi; unfold mvec; rewrite (bs_ext m _ (fun _ => 0)), bs_zero by (intros; ring); ring).
  destruct (loop_facts n m lambda X y Hn Hl tol k _ _ C0) as [C D]. fold p in C, D. split; [exact C|]. split; [exact D|].
  unfold p. clear p C D.
  enough (G : forall c r, consistent n m X y c r -> lasso_obj n m lambda X y (fst (lasso_loop (S k) n m lambda tol X c r)) <= lasso_obj n m lambda X y (fst (lasso_loop k n m lambda tol X c r))) by (apply G, C0).
  clear C0. induction k as [|k IH]; intros c r C.
  - apply (loop_facts n m lambda X y Hn Hl tol 1 c r C).
  - destruct (sweep_facts n m lambda X y Hn Hl m {| lc := c; lr := r; lmax := 0 |} (le_n m) C (Rle_refl 0)) as (C1 & _).
    change (lasso_loop (S (S k)) n m lambda tol X c r) with (let s := lasso_sweep n lambda X m {| lc := c; lr := r; lmax := 0 |} in if Rltb (lmax s) tol then (lc s, lr s) else lasso_loop (S k) n m lambda tol X (lc s) (lr s)).
    change (lasso_loop (S k) n m lambda tol X c r) with (let s := lasso_sweep n lambda X m {| lc := c; lr := r; lmax := 0 |} in if Rltb (lmax s) tol then (lc s, lr s) else lasso_loop k n m lambda tol X (lc s) (lr s)).
    cbv zeta. destruct (Rltb _ tol); [lra|]. apply IH, C1.
Qed.
Print Assumptions lasso_loop_sound.

(** One coordinate update minimises the objective over that coefficient. *)
Theorem lasso_coordinate_minimises : forall n m lambda X y s j t, (0 < n)%nat -> 0 <= lambda -> (j < m)%nat ->
  (forall i, (i < n)%nat -> lr s i = y i - bs m (fun j => X i j * lc s j)) ->
  let s' := lasso_coord n lambda X s j in
  (forall l, l <> j -> lc s' l = lc s l) /\ lasso_obj n m lambda X y (lc s') <= lasso_obj n m lambda X y (fun l => if Nat.eqb l j then t else lc s l).
Proof.
  intros n m lambda X y s j t Hn Hl Hj C s'. split.
  - intros l Hlj. unfold s', lasso_coord. simpl. unfold upd. destruct (Nat.eqb_spec l j); [contradiction|reflexivity].
  - pose proof (coord_gain n m lambda X y Hn Hl s j t Hj C) as G. cbv zeta in G. fold s' in G. change (fun l => if Nat.eqb l j then t else lc s l) with (upd (lc s) j t).
    assert (0 <= cnorm n X j / INR n / 2 * (t - lc s' j) ^ 2).
    { apply Rmult_le_pos; [|apply pow2_ge_0]. pose proof (cnorm_nonneg n X j). assert (0 < INR n) by (apply lt_0_INR, Hn).
      apply Rmult_le_pos; [apply Rmult_le_pos; [assumption|left; apply Rinv_0_lt_compat; assumption]|lra]. }
    lra.
Qed.
Print Assumptions lasso_coordinate_minimises.

(** Once the largest change of a sweep is d, the coefficients are optimal up to d
    times the overlaps of the columns: in particular a sweep that changes nothing
    ends at a global minimum. *)
Theorem lasso_sweep_near_optimal : forall n m lambda X y c r c', (0 < n)%nat -> 0 <= lambda ->
  (forall i, (i < n)%nat -> r i = y i - bs m (fun j => X i j * c j)) ->
  let s := lasso_sweep n lambda X m {| lc := c; lr := r; lmax := 0 |} in
  lasso_obj n m lambda X y (lc s) <= lasso_obj n m lambda X y c' +
    lmax s * bs m (fun j => bs m (fun l => Rabs (bs n (fun i => X i l * X i j))) / INR n * Rabs (c' j - lc s j)).
Proof.
  intros n m lambda X y c r c' Hn Hl C s.
  destruct (sweep_facts n m lambda X y Hn Hl m {| lc := c; lr := r; lmax := 0 |} (le_n m) C (Rle_refl 0)) as (C1 & _).
  destruct (sweep_kkt n m lambda X Hn Hl m {| lc := c; lr := r; lmax := 0 |} (le_n m) (Rle_refl 0)) as (_ & K). fold s in C1, K.
  eapply Rle_trans; [apply (near_kkt_optimal n m lambda X y Hn _ _ (fun j => lmax s * overlap n X m j) C1 K c')|].
  apply Rplus_le_compat_l. right. rewrite <- bs_scal. apply bs_ext. intros j Hj. unfold overlap, dotn, col. ring.
Qed.
Print Assumptions lasso_sweep_near_optimal.
Theorem lasso_fixed_point_optimal : forall n m lambda X y c r c', (0 < n)%nat -> 0 <= lambda ->
  (forall i, (i < n)%nat -> r i = y i - bs m (fun j => X i j * c j)) ->
  lmax (lasso_sweep n lambda X m {| lc := c; lr := r; lmax := 0 |}) = 0 ->
  lasso_obj n m lambda X y c <= lasso_obj n m lambda X y c'.
Proof.
  intros n m lambda X y c r c' Hn Hl C M. pose proof (lasso_sweep_near_optimal n m lambda X y c r c' Hn Hl C) as H. cbv zeta in H. rewrite M, Rmult_0_l, Rplus_0_r in H.
  destruct (sweep_facts n m lambda X y Hn Hl m {| lc := c; lr := r; lmax := 0 |} (le_n m) C (Rle_refl 0)) as (_ & _ & _ & _ & B). rewrite M in B. cbn [lc] in B.
  eapply Rle_trans; [|exact H]. right. apply obj_ext. intros j Hj. specialize (B j Hj).
  match type of B with Rabs ?u <= 0 => assert (Z : u = 0) by (destruct (Req_dec u 0) as [|E]; [assumption|apply Rabs_pos_lt in E; lra]) end. lra.
Qed.
Print Assumptions lasso_fixed_point_optimal.

(** With no zero column and enough iterations the loop ends by its tolerance test:
    the result is the same for any larger iteration limit, and is within tolerance
    times the overlaps of the global minimum. *)
Theorem lasso_terminates : forall k n m lambda tol X y a, (0 < n)%nat -> 0 <= lambda -> 0 < tol -> 0 < a ->
  (forall j, (j < m)%nat -> a <= bs n (fun i => X i j * X i j) / INR n) ->
  lasso_obj n m lambda X y (fun _ => 0) < INR k * (a / 2 * tol ^ 2) ->
  let c := fst (lasso_loop k n m lambda tol X (fun _ => 0) y) in
  (forall k', (k <= k')%nat -> fst (lasso_loop k' n m lambda tol X (fun _ => 0) y) = c) /\
  forall c', lasso_obj n m lambda X y c <= lasso_obj n m lambda X y c' +
    tol * bs m (fun j => bs m (fun l => Rabs (bs n (fun i => X i l * X i j))) / INR n * Rabs (c' j - c j)).
Proof.
  intros k n m lambda tol X y a Hn Hl Ht Ha Hc HO.
  assert (C0 : consistent n m X y (fun _ => 0) y) by (intros i Hi; unfold mvec; rewrite (bs_ext m _ (fun _ => 0)), bs_zero by (intros; ring); ring).
  assert (P : 0 < INR n) by (apply lt_0_INR, Hn).
  assert (NN : forall c, 0 <= lasso_obj n m lambda X y c).
  { intros c. unfold lasso_obj. apply Rplus_le_le_0_compat; [apply Rmult_le_pos; [apply bs_nonneg; intros; apply pow2_ge_0|left; apply Rinv_0_lt_compat; lra]|].
    apply Rmult_le_pos; [exact Hl|apply bs_nonneg; intros; apply Rabs_pos]. }
  cbv zeta.
  enough (W : forall c r, consistent n m X y c r -> lasso_obj n m lambda X y c < INR k * (a / 2 * tol ^ 2) ->
    (forall k', (k <= k')%nat -> fst (lasso_loop k' n m lambda tol X c r) = fst (lasso_loop k n m lambda tol X c r)) /\
    forall c', lasso_obj n m lambda X y (fst (lasso_loop k n m lambda tol X c r)) <= lasso_obj n m lambda X y c' +
      tol * bs m (fun j => bs m (fun l => Rabs (bs n (fun i => X i l * X i j))) / INR n * Rabs (c' j - fst (lasso_loop k n m lambda tol X c r) j))) by (apply W; assumption).
  clear C0 HO. induction k as [|k IH]; intros c r C HO.
  - simpl in HO. specialize (NN c). lra.
  - pose proof (sweep_gain n m lambda X y Hn Hl a Hc (Rlt_le _ _ Ha) m {| lc := c; lr := r; lmax := 0 |} (le_n m) C eq_refl) as G. cbv zeta in G. cbn [lc] in G.
    destruct (sweep_facts n m lambda X y Hn Hl m {| lc := c; lr := r; lmax := 0 |} (le_n m) C (Rle_refl 0)) as (C1 & M1 & _).
    assert (Un : forall q, lasso_loop (S q) n m lambda tol X c r = let s := lasso_sweep n lambda X m {| lc := c; lr := r; lmax := 0 |} in if Rltb (lmax s) tol then (lc s, lr s) else lasso_loop q n m lambda tol X (lc s) (lr s)) by reflexivity.
    rewrite (Un k). pose proof (fun c' => lasso_sweep_near_optimal n m lambda X y c r c' Hn Hl C) as NO. cbv zeta in NO.
    set (s := lasso_sweep n lambda X m {| lc := c; lr := r; lmax := 0 |}) in *. cbv zeta.
    destruct (Rltb_spec (lmax s) tol) as [L|L].
    + split.
      * intros [|k'] Hk; [lia|]. rewrite Un. cbv zeta. destruct (Rltb_spec (lmax s) tol); [reflexivity|lra].
      * intros c'. cbn [fst]. eapply Rle_trans; [apply NO|]. apply Rplus_le_compat_l. apply Rmult_le_compat_r; [|lra].
        apply bs_nonneg. intros j Hj. apply Rmult_le_pos; [|apply Rabs_pos]. apply Rmult_le_pos; [apply bs_nonneg; intros; apply Rabs_pos|left; apply Rinv_0_lt_compat, P].
    + assert (tol ^ 2 <= lmax s ^ 2) by (apply pow_incr; lra). rewrite S_INR in HO.
      destruct (IH (lc s) (lr s) C1) as [I1 I2]; [nra|]. split; [|exact I2].
      intros [|k'] Hk; [lia|]. rewrite Un. cbv zeta. destruct (Rltb_spec (lmax s) tol); [lra|]. apply I1. lia.
Qed.
Print Assumptions lasso_terminates.

(** A penalty above every correlation with the response selects no feature. *)
Theorem lasso_large_penalty : forall k n m lambda tol X y, (0 < n)%nat ->
  (forall j, (j < m)%nat -> Rabs (bs n (fun i => y i * X i j)) / INR n <= lambda) -> 0 <= lambda ->
  forall j, (j < m)%nat -> fst (lasso_loop k n m lambda tol X (fun _ => 0) y) j = 0.
Proof.
  intros k n m lambda tol X y Hn Hc Hl. assert (P : 0 < INR n) by (apply lt_0_INR, Hn).
  assert (SW : forall q s, (q <= m)%nat -> (forall j, (j < m)%nat -> lc s j = 0) -> (forall i, (i < n)%nat -> lr s i = y i) ->
    (forall j, (j < m)%nat -> lc (lasso_sweep n lambda X q s) j = 0) /\ (forall i, (i < n)%nat -> lr (lasso_sweep n lambda X q s) i = y i)).
  { induction q as [|q IH]; intros s Hq Zc Zr; cbn [lasso_sweep]; [auto|]. destruct (IH s ltac:(lia) Zc Zr) as [A B]. set (s1 := lasso_sweep n lambda X q s) in *.
    assert (S0 : soft lambda (dotn n (col X q) (col X q) / INR n) ((dotn n (lr s1) (col X q) + lc s1 q * dotn n (col X q) (col X q)) / INR n) = 0).
    { rewrite (A q) by lia. assert (E : dotn n (lr s1) (col X q) = bs n (fun i => y i * X i q)) by (apply bs_ext; intros i Hi; rewrite (B i Hi); reflexivity).
      rewrite E. specialize (Hc q ltac:(lia)). set (g := bs n (fun i => y i * X i q)) in *. replace ((g + 0 * dotn n (col X q) (col X q)) / INR n) with (g / INR n) by (field; lra).
      assert (Q : Rabs (g / INR n) <= lambda) by (unfold Rdiv; rewrite Rabs_mult, (Rabs_right (/ INR n)) by (left; apply Rinv_0_lt_compat, P); exact Hc).
      apply Rabs_le_between in Q || (pose proof (Rle_abs (g / INR n)); pose proof (Rle_abs (- (g / INR n))); rewrite Rabs_Ropp in *).
      unfold soft. destruct (Rltb_spec (g / INR n) (- lambda)); [lra|]. destruct (Rltb_spec lambda (g / INR n)); [lra|reflexivity]. }
    unfold lasso_coord. cbn [lc lr]. rewrite S0, (A q) by lia. replace (0 - 0) with 0 by ring. rewrite Rabs_R0. destruct (Rltb_spec 0 0); [lra|]. split; [|exact B].
    intros j Hj. unfold upd. destruct (Nat.eqb j q); [reflexivity|apply A, Hj]. }
  assert (G : forall c r, (forall j, (j < m)%nat -> c j = 0) -> (forall i, (i < n)%nat -> r i = y i) -> forall j, (j < m)%nat -> fst (lasso_loop k n m lambda tol X c r) j = 0).
  { induction k as [|k IH]; intros c r Zc Zr; [exact Zc|]. cbn [lasso_loop]. destruct (SW m {| lc := c; lr := r; lmax := 0 |} (le_n m) Zc Zr) as [A B].
    destruct (Rltb _ tol); [exact A|]. apply IH; assumption. }
  intros j Hj. apply G; auto.
Qed.
Print Assumptions lasso_large_penalty.

(** ** The intercept *)
(** objective on the raw data with intercept b *)
Definition lasso_raw (n m : nat) (lambda : R) (X : mat) (y : vec) (b : R) (c : vec) : R :=
  bs n (fun i => (y i - (mvec m X c i + b)) ^ 2) / (2 * INR n) + lambda * bs m (fun j => Rabs (c j)).

Lemma mean_sum n v : (0 < n)%nat -> bs n (fun i => v i - vmean n v) = 0.
Proof. intros Hn. rewrite bs_minus, bs_const. unfold vmean. field. apply not_0_INR. lia. Qed.
(** variance decomposition *)
Lemma lasso_raw_split n m lambda X y b c : (0 < n)%nat ->
  lasso_raw n m lambda X y b c = lasso_obj n m lambda (fun i j => X i j - vmean n (col X j)) (fun i => y i - vmean n y) c +
    (vmean n y - dotn m (fun j => vmean n (col X j)) c - b) ^ 2 / 2.
Proof.
  intros Hn. assert (P : INR n <> 0) by (apply not_0_INR; lia). unfold lasso_raw, lasso_obj. set (mu := fun j => vmean n (col X j)).
  set (d := vmean n y - dotn m mu c - b). set (u := fun i => y i - vmean n y - mvec m (fun i j => X i j - mu j) c i).
  assert (E : forall i, y i - (mvec m X c i + b) = u i + d).
  { intros i. unfold u, d, mvec, dotn. rewrite (bs_ext m (fun l => (X i l - mu l) * c l) (fun l => X i l * c l - mu l * c l)) by (intros; ring). rewrite bs_minus. ring. }
  assert (S0 : bs n u = 0).
  { unfold u. rewrite bs_minus, mean_sum by exact Hn. unfold mvec. rewrite bs_swap. rewrite (bs_ext m _ (fun _ => 0)); [rewrite bs_zero; ring|].
    intros j Hj. rewrite bs_scal_r. unfold mu. change (fun i => X i j - vmean n (col X j)) with (fun i => col X j i - vmean n (col X j)). rewrite mean_sum by exact Hn. ring. }
  rewrite (bs_ext n _ (fun i => u i ^ 2 + (2 * d * u i + d ^ 2))) by (intros i Hi; rewrite E; ring).
  rewrite !bs_plus, bs_scal, S0, bs_const. cbv beta. replace (bs n (fun i => (y i - vmean n y - mvec m (fun i j => X i j - vmean n (col X j)) c i) ^ 2)) with (bs n (fun i => u i ^ 2)) by reflexivity.
  fold mu. fold d. clearbody d. field. exact P.
Qed.

(** The reported intercept is the best one for the reported coefficients, the
    objective on the raw data is that of the centred problem the loop works on,
    and it is never worse than predicting the mean. *)
Theorem lasso_intercept : forall k lambda tol n m X y a c, (0 < n)%nat -> 0 <= lambda ->
  lasso true k lambda tol n m X y = Fitted a c ->
  let coef := fun j => c (S j) in
  a = c O /\ (forall b, lasso_raw n m lambda X y a coef <= lasso_raw n m lambda X y b coef) /\
  lasso_raw n m lambda X y a coef <= lasso_raw n m lambda X y (vmean n y) (fun _ => 0) /\
  bs n (fun i => y i - reg_predict m a c X i) = 0.
Proof.
  intros k lambda tol n m X y a c Hn Hl H coef. assert (P : INR n <> 0) by (apply not_0_INR; lia). unfold lasso in H.
  set (Z := fun i j => X i j - vmean n (col X j)) in H. set (w := fun i => y i - vmean n y) in H.
  set (b := fst (lasso_loop k n m lambda tol Z (fun _ => 0) w)) in H.
  assert (Ea : a = vmean n y - dotn m (fun j => vmean n (col X j)) b) by congruence.
  assert (Ec : forall j, coef j = b j) by (intros j; unfold coef; injection H as _ <-; reflexivity).
  assert (E0 : a = c O) by (injection H as <- <-; reflexivity).
  assert (Dd : dotn m (fun j => vmean n (col X j)) coef = dotn m (fun j => vmean n (col X j)) b) by (apply bs_ext; intros; rewrite Ec; reflexivity).
  split; [exact E0|]. split; [|split].
  - intros b'. rewrite !lasso_raw_split by exact Hn. apply Rplus_le_compat_l. rewrite Dd, <- Ea. replace (a - a) with 0 by ring. pose proof (pow2_ge_0 (a - b')). lra.
  - rewrite !lasso_raw_split by exact Hn. rewrite Dd, <- Ea. replace (a - a) with 0 by ring. fold Z. fold w.
    destruct (lasso_loop_sound k n m lambda tol Z w Hn Hl) as (_ & D & _). fold b in D.
    rewrite (obj_ext n m lambda Z w coef b) by (intros; apply Ec). pose proof (pow2_ge_0 (vmean n y - dotn m (fun j => vmean n (col X j)) (fun _ => 0) - vmean n y)). lra.
  - unfold reg_predict. fold coef. rewrite (bs_ext n _ (fun i => w i - mvec m Z coef i)).
    + rewrite bs_minus. unfold w. rewrite mean_sum by exact Hn. unfold mvec. rewrite bs_swap, (bs_ext m _ (fun _ => 0)); [rewrite bs_zero; ring|].
      intros j Hj. rewrite bs_scal_r. unfold Z. change (fun i => X i j - vmean n (col X j)) with (fun i => col X j i - vmean n (col X j)). rewrite mean_sum by exact Hn. ring.
    + intros i Hi. rewrite Ea, <- Dd. unfold w, Z, mvec, dotn. rewrite (bs_ext m (fun l => (X i l - vmean n (col X l)) * coef l) (fun l => X i l * coef l - vmean n (col X l) * coef l)) by (intros; ring). rewrite bs_minus. ring.
Qed.
Print Assumptions lasso_intercept.

(** Fitted with an intercept and enough iterations, intercept and coefficients
    together are optimal on the raw data up to the tolerance. *)
Theorem lasso_fit_near_optimal : forall k lambda tol n m X y a0 a c, (0 < n)%nat -> 0 <= lambda -> 0 < tol -> 0 < a0 ->
  let Z := fun i j => X i j - vmean n (col X j) in
  (forall j, (j < m)%nat -> a0 <= bs n (fun i => Z i j * Z i j) / INR n) ->
  bs n (fun i => (y i - vmean n y) ^ 2) / (2 * INR n) < INR k * (a0 / 2 * tol ^ 2) ->
  lasso true k lambda tol n m X y = Fitted a c ->
  forall b c', lasso_raw n m lambda X y a (fun j => c (S j)) <= lasso_raw n m lambda X y b c' +
    tol * bs m (fun j => bs m (fun l => Rabs (bs n (fun i => Z i l * Z i j))) / INR n * Rabs (c' j - c (S j))).
Proof.
  intros k lambda tol n m X y a0 a c Hn Hl Ht Ha Z Hz HO H b c'. set (w := fun i => y i - vmean n y).
  destruct (lasso_terminates k n m lambda tol Z w a0 Hn Hl Ht Ha Hz) as [_ T].
  { unfold lasso_obj. rewrite (bs_ext m _ (fun _ => 0)) by (intros; apply Rabs_R0). rewrite bs_zero, Rmult_0_r, Rplus_0_r.
    rewrite (bs_ext n _ (fun i => (y i - vmean n y) ^ 2)); [exact HO|]. intros i Hi. unfold mvec, w. rewrite (bs_ext m _ (fun _ => 0)), bs_zero by (intros; ring). ring. }
  unfold lasso in H. fold Z in H. fold w in H. set (bb := fst (lasso_loop k n m lambda tol Z (fun _ => 0) w)) in *.
  assert (Ea : a = vmean n y - dotn m (fun j => vmean n (col X j)) bb) by congruence.
  assert (Ec : (fun j => c (S j)) = bb) by (injection H as _ <-; reflexivity).
  rewrite Ec. change (fun j : nat => bs m (fun l => Rabs (bs n (fun i => Z i l * Z i j))) / INR n * Rabs (c' j - c (S j))) with (fun j : nat => bs m (fun l => Rabs (bs n (fun i => Z i l * Z i j))) / INR n * Rabs (c' j - (fun j => c (S j)) j)). rewrite Ec.
  rewrite !lasso_raw_split by exact Hn. fold Z. fold w. rewrite <- Ea. replace (a - a) with 0 by ring. specialize (T c').
  pose proof (pow2_ge_0 (vmean n y - dotn m (fun j => vmean n (col X j)) c' - b)). lra.
Qed.
Print Assumptions lasso_fit_near_optimal.

(** ** Concrete data: one feature x = -1, 1 with y = -2, 2 and penalty 1/2 *)
Definition two_x : mat := fun i _ => match i with O => -1 | _ => 1 end.
Definition two_y : vec := fun i => match i with O => -2 | _ => 2 end.
Example lasso_two : fst (lasso_loop 2 2 1 (1 / 2) (1 / 10) two_x (fun _ => 0) two_y) 0%nat = 3 / 2.
Proof.
  assert (N : dotn 2 (col two_x 0) (col two_x 0) = 2) by (unfold dotn, col, two_x; simpl; ring).
  assert (S1 : forall c r mx, r 0%nat = -2 + c 0%nat -> r 1%nat = 2 - c 0%nat ->
    lc (lasso_coord 2 (1 / 2) two_x {| lc := c; lr := r; lmax := mx |} 0) 0%nat = 3 / 2).
  { intros c r mx R0 R1. unfold lasso_coord. cbn [lc lr]. rewrite N. unfold upd. simpl Nat.eqb. cbv iota.
    assert (E : (dotn 2 r (col two_x 0) + c 0%nat * 2) / INR 2 = 2) by (unfold dotn, col, two_x; simpl; rewrite R0, R1; field).
    rewrite E. replace (INR 2) with 2 by (simpl; ring). unfold soft. destruct (Rltb_spec 2 (- (1 / 2))); [lra|]. destruct (Rltb_spec (1 / 2) 2); [field|lra]. }
  assert (C0 : consistent 2 1 two_x two_y (fun _ => 0) two_y) by (intros i Hi; unfold mvec; simpl; ring).
  cbn [lasso_loop lasso_sweep]. set (s := lasso_coord 2 (1 / 2) two_x {| lc := fun _ => 0; lr := two_y; lmax := 0 |} 0).
  assert (E1 : lc s 0%nat = 3 / 2) by (apply S1; unfold two_y; ring).
  destruct (Rltb (lmax s) (1 / 10)); [exact E1|].
  assert (Cs : consistent 2 1 two_x two_y (lc s) (lr s)) by (apply (coord_consistent 2 1 (1 / 2) two_x two_y {| lc := fun _ => 0; lr := two_y; lmax := 0 |} 0); [lia|exact C0]).
  set (s2 := lasso_coord 2 (1 / 2) two_x {| lc := lc s; lr := lr s; lmax := 0 |} 0).
  assert (E2 : lc s2 0%nat = 3 / 2).
  { apply S1; [rewrite (Cs 0%nat) by lia|rewrite (Cs 1%nat) by lia]; unfold mvec, two_x, two_y; simpl; ring. }
  destruct (Rltb (lmax s2) (1 / 10)); exact E2.
Qed.
