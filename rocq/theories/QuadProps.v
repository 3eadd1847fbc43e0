(** C82: what numerical integration guarantees. *)
From Coq Require Import Reals List ZArith Lra Lia Psatz.
From Coquelicot Require Import Coquelicot.
From Verif Require Import QuadModel QuadMath.
Import ListNotations.
Open Scope R_scope.

(** ** Moments, all of them *)
Lemma moment_tail : forall k, (100 <= k)%nat -> Rabs (moment k) <= moment 100.
Proof.
  intros k Hk. unfold moment, qsum. eapply Rle_trans; [apply isum_abs|]. apply isum_le. intros i Hi.
  destruct (row_spec i Hi) as (W & X & _). rewrite Rabs_mult, (Rabs_right (wt i)) by lra. apply Rmult_le_compat_l; [exact W|].
  replace k with (100 + (k - 100))%nat by lia. rewrite pow_add, Rabs_mult.
  rewrite (Rabs_right (nd i ^ 100)) by (apply Rle_ge; change 100%nat with (2 * 50)%nat; rewrite pow_mult; apply pow_le, pow2_ge_0).
  rewrite <- (Rmult_1_r (nd i ^ 100)) at 2. apply Rmult_le_compat_l; [change 100%nat with (2 * 50)%nat; rewrite pow_mult; apply pow_le, pow2_ge_0|].
  rewrite <- RPow_abs. replace 1 with (1 ^ (k - 100)) by apply pow1. apply pow_incr. split; [apply Rabs_pos|exact X].
Qed.
Lemma moment_accuracy : forall k, Rabs (moment k - exact_moment k) <= delta k.
Proof.
  intro k. destruct (le_dec k 100) as [H|H]; [apply moment_small; exact H|].
  pose proof (moment_tail k ltac:(lia)) as T. pose proof (moment_small 100 ltac:(lia)) as S.
  assert (D : delta k = / 50). { unfold delta, inv_delta. rewrite (proj2 (Nat.leb_gt k 11)), (proj2 (Nat.leb_gt k 30)), (proj2 (Nat.leb_gt k 100)) by lia. reflexivity. }
  assert (D1 : delta 100 = / 100000000) by (unfold delta, inv_delta; cbn [Nat.leb]; reflexivity).
  assert (E1 : exact_moment 100 = 2 / 101) by (unfold exact_moment; cbn [Nat.even]; f_equal; rewrite INR_IZR_INZ; reflexivity).
  rewrite D1, E1 in S. pose proof (Rle_abs (moment 100 - 2 / 101)) as A. rewrite D.
  unfold exact_moment. destruct (Nat.even k) eqn:EV.
  - assert (M : 0 <= moment k).
    { unfold moment, qsum. replace 0 with (isum (seq 0 100) (fun _ => 0)) by (rewrite isum_const; ring). apply isum_le. intros i Hi.
      destruct (row_spec i Hi) as (W & _). apply Rmult_le_pos; [exact W|]. apply Nat.even_spec in EV. destruct EV as [j ->]. rewrite pow_mult. apply pow_le, pow2_ge_0. }
    assert (N : 101 <= INR k) by (replace 101 with (INR 101) by (rewrite INR_IZR_INZ; reflexivity); apply le_INR; lia). rewrite S_INR.
    assert (Q : 0 < 2 / (INR k + 1) <= / 51).
    { split; [apply Rdiv_lt_0_compat; lra|]. apply Rmult_le_reg_r with (INR k + 1); [lra|]. unfold Rdiv. rewrite Rmult_assoc, Rinv_l by lra. lra. }
    rewrite Rabs_right in T by lra. apply Rabs_le. lra.
  - rewrite Rminus_0_r. lra.
Qed.

(** ** Sums of the rule *)
Lemma qsum_plus : forall f g, qsum (fun x => f x + g x) = qsum f + qsum g.
Proof. intros. unfold qsum. rewrite <- isum_plus. apply isum_ext. intros; ring. Qed.
Lemma qsum_scal : forall c f, qsum (fun x => c * f x) = c * qsum f.
Proof. intros. unfold qsum. rewrite <- isum_scal. apply isum_ext. intros; ring. Qed.
Lemma qsum_ext : forall f g, (forall t, -1 <= t <= 1 -> f t = g t) -> qsum f = qsum g.
Proof. intros f g H. unfold qsum. apply isum_ext. intros i Hi. destruct (row_spec i Hi) as (_ & X & _). rewrite H; [reflexivity|]. apply Rabs_le_between. exact X. Qed.
Lemma qsum_le : forall f g, (forall t, -1 <= t <= 1 -> f t <= g t) -> qsum f <= qsum g.
Proof. intros f g H. unfold qsum. apply isum_le. intros i Hi. destruct (row_spec i Hi) as (W & X & _). apply Rmult_le_compat_l; [exact W|]. apply H. apply Rabs_le_between. exact X. Qed.
Lemma qsum_const : forall c, qsum (fun _ => c) = c * moment 0.
Proof. intro c. unfold moment. rewrite <- qsum_scal. apply qsum_ext. intros; simpl; ring. Qed.
Lemma moment0 : Rabs (moment 0 - 2) <= delta 0.
Proof. pose proof (moment_accuracy 0) as H. unfold exact_moment in H. simpl in H. replace (2 / 1) with 2 in H by field. exact H. Qed.
Lemma qsum_bound : forall f m, (forall t, -1 <= t <= 1 -> Rabs (f t) <= m) -> Rabs (qsum f) <= m * (2 + delta 0).
Proof.
  intros f m H. assert (Hm : 0 <= m) by (eapply Rle_trans; [apply Rabs_pos|apply (H 0); lra]).
  pose proof moment0 as M. apply Rabs_le_between in M. apply Rabs_le.
  assert (U : qsum f <= qsum (fun _ => m)) by (apply qsum_le; intros t Ht; specialize (H t Ht); apply Rabs_le_between in H; lra).
  assert (L : qsum (fun _ => - m) <= qsum f) by (apply qsum_le; intros t Ht; specialize (H t Ht); apply Rabs_le_between in H; lra).
  rewrite qsum_const in U, L. nra.
Qed.

(** the integral on [[-1, 1]] against the integral on [[a, b]] *)
Lemma change_variables : forall f a b I, is_RInt f a b I ->
  let c := / 2 * (b - a) in let d := / 2 * (a + b) in
  is_RInt (fun t => c * f (c * t + d)) (-1) 1 I.
Proof.
  intros f a b I H c d. apply (is_RInt_comp_lin f c d (-1) 1 I).
  replace (c * -1 + d) with a by (unfold c, d; field). replace (c * 1 + d) with b by (unfold c, d; field). exact H.
Qed.
Lemma integrate_qsum : forall (f : R -> option R) (g : R -> R) a b,
  let c := / 2 * (b - a) in let d := / 2 * (a + b) in
  (forall x, Rmin a b <= x <= Rmax a b -> f x = Some (g x)) -> integrate f a b = c * qsum (fun t => g (c * t + d)).
Proof.
  intros f g a b c d H. unfold integrate. fold c. fold d. rewrite tanhsinh_qsum. f_equal. apply qsum_ext. intros t Ht. rewrite H; [reflexivity|].
  unfold c, d, Rmin, Rmax. destruct (Rle_dec a b); nra.
Qed.

(** ** Polynomials *)
Definition poly (a : list R) (t : R) : R := isum (seq 0 (length a)) (fun k => nth k a 0 * t ^ k).
Definition poly_error (a : list R) : R := isum (seq 0 (length a)) (fun k => Rabs (nth k a 0) * delta k).

Lemma is_RInt_pow : forall k, is_RInt (fun t => t ^ k) (-1) 1 (exact_moment k).
Proof.
  intro k. assert (H : is_RInt (fun t => t ^ k) (-1) 1 (1 ^ S k / INR (S k) - (-1) ^ S k / INR (S k))).
  { apply (is_RInt_derive (fun t => t ^ S k / INR (S k)) (fun t => t ^ k)).
    - intros x _. assert (P : INR (S k) <> 0) by (apply not_0_INR; lia).
      auto_derive; [trivial|]. change (Init.Nat.pred (S k)) with k. match goal with |- ?u = ?v => change (@eq R u v) end. simpl Nat.pred. field. exact P.
    - intros x _. apply (ex_derive_continuous (fun t => t ^ k)). auto_derive. trivial. }
  replace (exact_moment k) with (1 ^ S k / INR (S k) - (-1) ^ S k / INR (S k)); [exact H|].
  unfold exact_moment. rewrite pow1. assert (P : INR (S k) <> 0) by (apply not_0_INR; lia).
  destruct (Nat.even k) eqn:E.
  - apply Nat.even_spec in E. destruct E as [j ->]. rewrite pow_1_odd. field. exact P.
  - assert (O : Nat.odd k = true) by (unfold Nat.odd; rewrite E; reflexivity). apply Nat.odd_spec in O. destruct O as [j ->].
    replace (S (2 * j + 1)) with (2 * (j + 1))%nat in * by lia. rewrite pow_1_even. field. exact P.
Qed.
Lemma is_RInt_isum : forall l (c m : nat -> R), (forall k, is_RInt (fun t => t ^ k) (-1) 1 (m k)) ->
  is_RInt (fun t => isum l (fun k => c k * t ^ k)) (-1) 1 (isum l (fun k => c k * m k)).
Proof.
  induction l as [|k l IH]; intros c m H; simpl.
  - pose proof (is_RInt_const (V := R_NormedModule) (-1) 1 0) as Z. unfold scal in Z; simpl in Z; unfold mult in Z; simpl in Z. rewrite Rmult_0_r in Z. exact Z.
  - apply (is_RInt_plus (V := R_NormedModule)); [|apply IH; exact H]. apply (is_RInt_scal (V := R_NormedModule)). apply H.
Qed.
Lemma qsum_isum : forall l (c : nat -> R), qsum (fun t => isum l (fun k => c k * t ^ k)) = isum l (fun k => c k * moment k).
Proof. induction l as [|k l IH]; intro c; simpl; [rewrite qsum_const; ring|]. rewrite qsum_plus, qsum_scal, IH. reflexivity. Qed.
Lemma poly_accuracy : forall a, exists P, is_RInt (poly a) (-1) 1 P /\ Rabs (qsum (poly a) - P) <= poly_error a.
Proof.
  intro a. exists (isum (seq 0 (length a)) (fun k => nth k a 0 * exact_moment k)). split; [apply is_RInt_isum; apply is_RInt_pow|].
  unfold poly. rewrite qsum_isum. unfold poly_error.
  replace (isum (seq 0 (length a)) (fun k => nth k a 0 * moment k) - isum (seq 0 (length a)) (fun k => nth k a 0 * exact_moment k))
    with (isum (seq 0 (length a)) (fun k => nth k a 0 * (moment k - exact_moment k))).
  2: { rewrite (isum_ext _ _ (fun k => nth k a 0 * moment k + -1 * (nth k a 0 * exact_moment k))) by (intros; ring). rewrite isum_plus, isum_scal. ring. }
  eapply Rle_trans; [apply isum_abs|]. apply isum_le. intros k _. rewrite Rabs_mult. apply Rmult_le_compat_l; [apply Rabs_pos|apply moment_accuracy].
Qed.

(** A function within [eps] of a polynomial (in the variable that runs over [[-1, 1]]),
    of any degree, is integrated to within the stated error. *)
Theorem integrate_near_polynomial : forall (f : R -> option R) (g : R -> R) a b I coefs eps,
  let c := / 2 * (b - a) in let d := / 2 * (a + b) in
  (forall x, Rmin a b <= x <= Rmax a b -> f x = Some (g x)) -> is_RInt g a b I ->
  (forall t, -1 <= t <= 1 -> Rabs (g (c * t + d) - poly coefs t) <= eps) ->
  Rabs (integrate f a b - I) <= Rabs c * ((4 + delta 0) * eps + poly_error coefs).
Proof.
  intros f g a b I coefs eps c d HF HI HE. rewrite (integrate_qsum f g a b HF). fold c. fold d.
  pose proof (change_variables g a b I HI) as HI'. cbv zeta in HI'. fold c in HI'. fold d in HI'.
  destruct (poly_accuracy coefs) as (P & HP & EP).
  assert (HD : is_RInt (fun t => c * (g (c * t + d) - poly coefs t)) (-1) 1 (I - c * P)).
  { apply (is_RInt_ext (fun t => minus (c * g (c * t + d)) (scal c (poly coefs t)))).
    - intros t _. unfold minus, plus, opp, scal; simpl; unfold mult; simpl. ring.
    - apply (is_RInt_minus (V := R_NormedModule)); [exact HI'|]. apply (is_RInt_scal (V := R_NormedModule)). exact HP. }
  assert (BD : Rabs (I - c * P) <= Rabs c * (2 * eps)).
  { replace (Rabs c * (2 * eps)) with ((1 - -1) * (Rabs c * eps)) by ring.
    apply (norm_RInt_le_const (fun t => c * (g (c * t + d) - poly coefs t)) (-1) 1 (I - c * P) (Rabs c * eps)); [lra| |exact HD].
    intros t Ht. change (norm (c * (g (c * t + d) - poly coefs t))) with (Rabs (c * (g (c * t + d) - poly coefs t))).
    rewrite Rabs_mult. apply Rmult_le_compat_l; [apply Rabs_pos|apply HE; exact Ht]. }
  assert (BQ : Rabs (qsum (fun t => g (c * t + d)) - qsum (poly coefs)) <= eps * (2 + delta 0)).
  { replace (qsum (fun t => g (c * t + d)) - qsum (poly coefs)) with (qsum (fun t => g (c * t + d) - poly coefs t)); [apply qsum_bound; exact HE|].
    rewrite (qsum_ext _ (fun t => g (c * t + d) + -1 * poly coefs t)) by (intros; ring). rewrite (qsum_plus (fun t => g (c * t + d))), qsum_scal. ring. }
  replace (c * qsum (fun t => g (c * t + d)) - I) with (c * (qsum (fun t => g (c * t + d)) - qsum (poly coefs)) + c * (qsum (poly coefs) - P) - (I - c * P)) by ring.
  eapply Rle_trans; [apply Rabs_triang|]. eapply Rle_trans; [apply Rplus_le_compat_r, Rabs_triang|]. rewrite Rabs_Ropp, !Rabs_mult.
  assert (T1 : Rabs c * Rabs (qsum (fun t => g (c * t + d)) - qsum (poly coefs)) <= Rabs c * (eps * (2 + delta 0))) by (apply Rmult_le_compat_l; [apply Rabs_pos|exact BQ]).
  assert (T2 : Rabs c * Rabs (qsum (poly coefs) - P) <= Rabs c * poly_error coefs) by (apply Rmult_le_compat_l; [apply Rabs_pos|exact EP]).
  lra.
Qed.
Print Assumptions integrate_near_polynomial.

(** ** Smooth functions: Taylor polynomials around the midpoint *)
Lemma sum_f_R0_isum : forall (u : nat -> R) n, sum_f_R0 u n = isum (seq 0 (S n)) u.
Proof.
  intros u n. assert (G : forall l m, isum (l ++ m) u = isum l u + isum m u).
  { induction l as [|i l IH]; intro m; simpl; [ring|]. rewrite IH. ring. }
  induction n as [|n IH]; [simpl; ring|]. rewrite (seq_S (S n)), G, <- IH. simpl. ring.
Qed.
Lemma poly_map : forall (u : nat -> R) n t, poly (map u (seq 0 n)) t = isum (seq 0 n) (fun k => u k * t ^ k).
Proof.
  intros u n t. unfold poly. rewrite map_length, seq_length. apply isum_ext. intros k Hk. apply in_seq in Hk.
  rewrite (nth_indep _ 0 (u 0%nat)) by (rewrite map_length, seq_length; lia). rewrite map_nth, seq_nth by lia. reflexivity.
Qed.
Lemma poly_error_map : forall (u : nat -> R) n, poly_error (map u (seq 0 n)) = isum (seq 0 n) (fun k => Rabs (u k) * delta k).
Proof.
  intros u n. unfold poly_error. rewrite map_length, seq_length. apply isum_ext. intros k Hk. apply in_seq in Hk.
  rewrite (nth_indep _ 0 (u 0%nat)) by (rewrite map_length, seq_length; lia). rewrite map_nth, seq_nth by lia. reflexivity.
Qed.

Lemma taylor_right : forall g n d y M, d <= y ->
  (forall x k, d <= x <= y -> (k <= S n)%nat -> ex_derive_n g k x) -> (forall x, d <= x <= y -> Rabs (Derive_n g (S n) x) <= M) ->
  Rabs (g y - sum_f_R0 (fun m => (y - d) ^ m / INR (fact m) * Derive_n g m d) n) <= M * (y - d) ^ S n / INR (fact (S n)).
Proof.
  intros g n d y M Hy HD HM. destruct (Rle_lt_or_eq_dec d y Hy) as [L|<-].
  - destruct (Taylor_Lagrange g n d y L (fun t Ht k Hk => HD t k Ht Hk)) as (z & Hz & E). rewrite E.
    set (T := sum_f_R0 _ n). replace (T + (y - d) ^ S n / INR (fact (S n)) * Derive_n g (S n) z - T) with ((y - d) ^ S n / INR (fact (S n)) * Derive_n g (S n) z) by ring.
    assert (P : 0 <= (y - d) ^ S n / INR (fact (S n))).
    { apply Rmult_le_pos; [apply pow_le; lra|left; apply Rinv_0_lt_compat, INR_fact_lt_0]. }
    rewrite Rabs_mult, Rabs_right by lra. replace (M * (y - d) ^ S n / INR (fact (S n))) with ((y - d) ^ S n / INR (fact (S n)) * M) by (unfold Rdiv; ring).
    apply Rmult_le_compat_l; [exact P|]. apply HM. lra.
  - assert (S0 : sum_f_R0 (fun m => (d - d) ^ m / INR (fact m) * Derive_n g m d) n = g d).
    { clear HD HM. induction n as [|n IH]; [simpl; field|]. cbn [sum_f_R0]. rewrite IH. replace (d - d) with 0 by ring. rewrite pow_i by lia. unfold Rdiv. ring. }
    rewrite S0. replace (g d - g d) with 0 by ring. rewrite Rabs_R0. replace (d - d) with 0 by ring. rewrite pow_i by lia. unfold Rdiv. rewrite Rmult_0_r, Rmult_0_l. lra.
Qed.
Lemma taylor_both : forall g n d y M lo hi h, Rabs (y - d) <= h -> lo < d - h -> d + h < hi ->
  (forall x k, lo < x < hi -> (k <= S n)%nat -> ex_derive_n g k x) -> (forall x, d - h <= x <= d + h -> Rabs (Derive_n g (S n) x) <= M) ->
  Rabs (g y - sum_f_R0 (fun m => (y - d) ^ m / INR (fact m) * Derive_n g m d) n) <= M * Rabs (y - d) ^ S n / INR (fact (S n)).
Proof.
  intros g n d y M lo hi h Hy Hlo Hhi HD HM. apply Rabs_le_between in Hy. destruct (Rle_or_lt d y) as [L|L].
  - rewrite (Rabs_right (y - d)) by lra. apply taylor_right; [exact L| |]; intros; [apply HD; [lra|assumption]|apply HM; lra].
  - set (r := fun x => g (- x)).
    assert (LC : forall m x, (m <= S n)%nat -> lo < x < hi -> locally x (fun z => forall k, (k <= m)%nat -> ex_derive_n g k z)).
    { intros m x Hm Hx. assert (P : 0 < Rmin (x - lo) (hi - x)) by (apply Rmin_pos; lra). exists (mkposreal _ P). intros z Hz k Hk. apply HD; [|lia].
      change (Rabs (z - x) < Rmin (x - lo) (hi - x)) in Hz. pose proof (Rmin_l (x - lo) (hi - x)). pose proof (Rmin_r (x - lo) (hi - x)). apply Rabs_def2 in Hz. lra. }
    assert (DR : forall k x, (k <= S n)%nat -> lo < - x < hi -> Derive_n r k x = (-1) ^ k * Derive_n g k (- x)).
    { intros k x Hk Hx. unfold r. apply Derive_n_comp_opp. apply LC; assumption. }
    assert (E : Rabs (r (- y) - sum_f_R0 (fun m => (- y - - d) ^ m / INR (fact m) * Derive_n r m (- d)) n) <= M * (- y - - d) ^ S n / INR (fact (S n))).
    { apply taylor_right; [lra| |].
      - intros x k Hx Hk. unfold r. apply ex_derive_n_comp_opp. apply LC; [assumption|lra].
      - intros x Hx. rewrite DR by (try lia; lra). rewrite Rabs_mult, <- RPow_abs. replace (Rabs (-1)) with 1 by (rewrite Rabs_left by lra; ring). rewrite pow1, Rmult_1_l. apply HM. lra. }
    replace (Rabs (y - d)) with (- y - - d) by (rewrite Rabs_left by lra; ring).
    replace (g y) with (r (- y)) by (unfold r; rewrite Ropp_involutive; reflexivity).
    rewrite (sum_eq _ (fun m => (- y - - d) ^ m / INR (fact m) * Derive_n r m (- d)) n); [exact E|].
    intros m Hm. rewrite DR by (try lia; lra). rewrite Ropp_involutive.
    replace (- y - - d) with (-1 * (y - d)) by ring. rewrite Rpow_mult_distr.
    assert (S1 : (-1) ^ m * (-1) ^ m = 1) by (rewrite <- Rpow_mult_distr; replace (-1 * -1) with 1 by ring; apply pow1).
    replace ((-1) ^ m * (y - d) ^ m / INR (fact m) * ((-1) ^ m * Derive_n g m d)) with (((-1) ^ m * (-1) ^ m) * ((y - d) ^ m / INR (fact m) * Derive_n g m d)) by (unfold Rdiv; ring).
    rewrite S1. ring.
Qed.

(** [n + 1] derivatives around [[a, b]], the last bounded by [M]: the error bound has
    the Taylor remainder and the coefficients weighted by the accuracy of the moments
    (1e-15 up to degree 11, 1e-10 up to 30, 1e-8 up to 100). *)
Theorem integrate_smooth : forall (f : R -> option R) (g : R -> R) a b lo hi n M,
  let c := / 2 * (b - a) in let d := / 2 * (a + b) in
  lo < a <= b -> b < hi -> (forall x k, lo < x < hi -> (k <= S n)%nat -> ex_derive_n g k x) ->
  (forall x, a <= x <= b -> f x = Some (g x) /\ Rabs (Derive_n g (S n) x) <= M) ->
  ex_RInt g a b /\
  Rabs (integrate f a b - RInt g a b) <=
    c * ((4 + delta 0) * (M * c ^ S n / INR (fact (S n))) + sum_f_R0 (fun k => Rabs (Derive_n g k d) * c ^ k / INR (fact k) * delta k) n).
Proof.
  intros f g a b lo hi n M c d Ha Hb HD HM.
  assert (EX : ex_RInt g a b).
  { apply (ex_RInt_continuous (V := R_CompleteNormedModule)). intros x Hx. rewrite Rmin_left, Rmax_right in Hx by lra.
    apply (ex_derive_continuous g). apply (HD x 1%nat); [lra|lia]. }
  split; [exact EX|]. pose proof (RInt_correct g a b EX) as HI.
  assert (Hc : 0 <= c) by (unfold c; lra).
  set (u := fun k => c ^ k / INR (fact k) * Derive_n g k d).
  pose proof (integrate_near_polynomial f g a b (RInt g a b) (map u (seq 0 (S n))) (M * c ^ S n / INR (fact (S n)))) as P. cbv zeta in P. fold c in P. fold d in P.
  rewrite (Rabs_right c), poly_error_map, <- sum_f_R0_isum in P by lra.
  rewrite (sum_eq (fun k => Rabs (Derive_n g k d) * c ^ k / INR (fact k) * delta k) (fun k => Rabs (u k) * delta k)).
  - apply P; [|exact HI|].
    + intros x Hx. rewrite Rmin_left, Rmax_right in Hx by lra. apply HM. exact Hx.
    + intros t Ht. rewrite poly_map, <- sum_f_R0_isum.
      rewrite (sum_eq _ (fun m => (c * t + d - d) ^ m / INR (fact m) * Derive_n g m d)).
      2: { intros k _. unfold u. replace (c * t + d - d) with (c * t) by ring. rewrite Rpow_mult_distr. unfold Rdiv. ring. }
      assert (A : Rabs (c * t + d - d) <= c).
      { replace (c * t + d - d) with (c * t) by ring. rewrite Rabs_mult, Rabs_right by lra. rewrite <- (Rmult_1_r c) at 2. apply Rmult_le_compat_l; [exact Hc|]. apply Rabs_le. lra. }
      eapply Rle_trans; [apply (taylor_both g n d (c * t + d) M lo hi c A)|].
      * unfold c, d. lra.
      * unfold c, d. lra.
      * exact HD.
      * intros x Hx. apply HM. unfold c, d in Hx. lra.
      * unfold Rdiv. apply Rmult_le_compat_r; [left; apply Rinv_0_lt_compat, INR_fact_lt_0|]. apply Rmult_le_compat_l.
        -- eapply Rle_trans; [apply Rabs_pos|]. apply (HM a). lra.
        -- apply pow_incr. split; [apply Rabs_pos|exact A].
  - intros k _. unfold u. unfold Rdiv. rewrite !Rabs_mult. rewrite (Rabs_right (c ^ k)) by (apply Rle_ge, pow_le; exact Hc).
    rewrite (Rabs_right (/ INR (fact k))) by (left; apply Rinv_0_lt_compat, INR_fact_lt_0). ring.
Qed.
Print Assumptions integrate_smooth.

(** ** Analytic functions *)
Lemma Series_nonneg : forall v, (forall k, 0 <= v k) -> ex_series v -> 0 <= Series v.
Proof.
  intros v H E. replace 0 with (Series (fun k => 0 * v k)) by (rewrite Series_scal_l; ring). apply Series_le; [|exact E].
  intro k. specialize (H k). lra.
Qed.
Theorem integrate_power_series : forall (f : R -> option R) (g : R -> R) a b I (u : nat -> R),
  let c := / 2 * (b - a) in let d := / 2 * (a + b) in
  (forall x, Rmin a b <= x <= Rmax a b -> f x = Some (g x)) -> is_RInt g a b I ->
  ex_series (fun k => Rabs (u k)) -> (forall t, -1 <= t <= 1 -> is_series (fun k => u k * t ^ k) (g (c * t + d))) ->
  ex_series (fun k => Rabs (u k) * delta k) /\
  Rabs (integrate f a b - I) <= Rabs c * Series (fun k => Rabs (u k) * delta k).
Proof.
  intros f g a b I u c d HF HI HU HS.
  assert (D1 : forall k, 0 < delta k <= 1).
  { intro k. split; [apply delta_pos|]. unfold delta. rewrite <- Rinv_1. apply Rinv_le_contravar; [lra|]. apply IZR_le. pose proof (inv_delta_pos k). lia. }
  assert (HUD : ex_series (fun k => Rabs (u k) * delta k)).
  { apply (ex_series_le (K := R_AbsRing) (V := R_CompleteNormedModule) _ (fun k => Rabs (u k))); [|exact HU]. intro k.
    change (Rabs (Rabs (u k) * delta k) <= Rabs (u k)). destruct (D1 k). pose proof (Rabs_pos (u k)). rewrite Rabs_right by (apply Rle_ge, Rmult_le_pos; lra). nra. }
  split; [exact HUD|].
  set (tail := fun n => Series (fun k => Rabs (u (S n + k)%nat))).
  assert (TL : forall n, Series (fun k => Rabs (u k)) = sum_f_R0 (fun k => Rabs (u k)) n + tail n).
  { intro n. unfold tail. rewrite (Series_incr_n (fun k => Rabs (u k)) (S n)) by (lia || exact HU). reflexivity. }
  assert (B : forall n, Rabs (integrate f a b - I) <= Rabs c * (5 * tail n + Series (fun k => Rabs (u k) * delta k))).
  { intro n. pose proof (integrate_near_polynomial f g a b I (map u (seq 0 (S n))) (tail n)) as P. cbv zeta in P. fold c in P. fold d in P.
    eapply Rle_trans; [apply P; [exact HF|exact HI|]|].
    - intros t Ht. rewrite poly_map, <- sum_f_R0_isum. specialize (HS t Ht).
      assert (ET : ex_series (fun k => u k * t ^ k)) by (eexists; exact HS).
      assert (LE : forall k, Rabs (u k * t ^ k) <= Rabs (u k)).
      { intro k. rewrite Rabs_mult. rewrite <- (Rmult_1_r (Rabs (u k))) at 2. apply Rmult_le_compat_l; [apply Rabs_pos|].
        rewrite <- RPow_abs. replace 1 with (1 ^ k) by apply pow1. apply pow_incr. split; [apply Rabs_pos|apply Rabs_le; lra]. }
      rewrite <- (is_series_unique _ _ HS). rewrite (Series_incr_n (fun k => u k * t ^ k) (S n)) by (lia || exact ET). simpl Nat.pred.
      match goal with |- Rabs (?x + ?y - ?z) <= _ => replace (x + y - z) with y by ring end.
      assert (EB : ex_series (fun k => Rabs (u (S n + k)%nat))) by (apply (ex_series_incr_n (fun k => Rabs (u k)) (S n)); exact HU).
      eapply Rle_trans; [apply Series_Rabs|].
      + apply (ex_series_le (K := R_AbsRing) (V := R_CompleteNormedModule) _ (fun k => Rabs (u (S n + k)%nat))); [|exact EB].
        intro k. change (Rabs (Rabs (u (S n + k)%nat * t ^ (S n + k))) <= Rabs (u (S n + k)%nat)). rewrite Rabs_Rabsolu. apply LE.
      + unfold tail. apply Series_le; [|exact EB]. intro k. split; [apply Rabs_pos|apply LE].
    - apply Rmult_le_compat_l; [apply Rabs_pos|]. apply Rplus_le_compat.
      + apply Rmult_le_compat_r; [|destruct (D1 0%nat); lra]. unfold tail. apply Series_nonneg.
        * intro k. apply Rabs_pos.
        * apply (ex_series_incr_n (fun k => Rabs (u k)) (S n)); exact HU.
      + rewrite poly_error_map, <- sum_f_R0_isum. rewrite (Series_incr_n (fun k => Rabs (u k) * delta k) (S n)) by (lia || exact HUD). simpl Nat.pred.
        rewrite <- (Rplus_0_r (sum_f_R0 _ n)) at 1. apply Rplus_le_compat_l. apply Series_nonneg.
        * intro k. apply Rmult_le_pos; [apply Rabs_pos|destruct (D1 (S n + k)%nat); lra].
        * apply (ex_series_incr_n (fun k => Rabs (u k) * delta k) (S n)); exact HUD. }
  assert (LT : is_lim_seq tail 0).
  { apply (is_lim_seq_ext (fun n => Series (fun k => Rabs (u k)) - sum_f_R0 (fun k => Rabs (u k)) n)); [intro n; rewrite (TL n); ring|].
    replace 0 with (Series (fun k => Rabs (u k)) - Series (fun k => Rabs (u k))) by ring.
    apply (is_lim_seq_minus' (fun _ => Series (fun k => Rabs (u k)))); [apply is_lim_seq_const|].
    apply (is_lim_seq_ext (sum_n (fun k => Rabs (u k)))); [intro n; apply sum_n_Reals|]. apply Series_correct in HU. exact HU. }
  assert (LL : is_lim_seq (fun n => Rabs c * (5 * tail n + Series (fun k => Rabs (u k) * delta k))) (Rabs c * (5 * 0 + Series (fun k => Rabs (u k) * delta k)))).
  { apply (is_lim_seq_scal_l _ (Rabs c) (5 * 0 + Series (fun k => Rabs (u k) * delta k))). apply is_lim_seq_plus'; [|apply is_lim_seq_const].
    apply (is_lim_seq_scal_l _ 5 0). exact LT. }
  pose proof (is_lim_seq_le _ _ _ _ B (is_lim_seq_const (Rabs (integrate f a b - I))) LL) as R. simpl in R. lra.
Qed.
Print Assumptions integrate_power_series.

Lemma delta_growth : forall k, delta k <= / 10 ^ 15 * 3 ^ k.
Proof.
  intro k. assert (Z : (10 ^ 15 <= inv_delta k * 3 ^ Z.of_nat k)%Z).
  { unfold inv_delta. destruct (Nat.leb_spec k 11); [assert (0 < 3 ^ Z.of_nat k)%Z by (apply Z.pow_pos_nonneg; lia); nia|].
    destruct (Nat.leb_spec k 30); [assert (3 ^ 12 <= 3 ^ Z.of_nat k)%Z by (apply Z.pow_le_mono_r; lia); change (3 ^ 12)%Z with 531441%Z in *; nia|].
    destruct (Nat.leb_spec k 100); [assert (3 ^ 31 <= 3 ^ Z.of_nat k)%Z by (apply Z.pow_le_mono_r; lia); change (3 ^ 31)%Z with 617673396283947%Z in *; nia|].
    assert (3 ^ 40 <= 3 ^ Z.of_nat k)%Z by (apply Z.pow_le_mono_r; lia). change (3 ^ 40)%Z with 12157665459056928801%Z in *. nia. }
  apply IZR_le in Z. rewrite mult_IZR, <- (pow_IZR 3 k) in Z. change (IZR (10 ^ 15)) with 1000000000000000 in Z. unfold delta.
  pose proof (IZR_lt _ _ (inv_delta_pos k)) as P. replace (10 ^ 15) with 1000000000000000 by ring.
  apply Rmult_le_reg_r with (IZR (inv_delta k)); [exact P|]. rewrite Rinv_l by lra. lra.
Qed.

(** Convergence of the Taylor series at the midpoint in a disc of more than three
    half-widths gives fifteen digits. *)
Theorem integrate_analytic : forall (f : R -> option R) (g : R -> R) a b I (u : nat -> R),
  let c := / 2 * (b - a) in let d := / 2 * (a + b) in
  (forall x, Rmin a b <= x <= Rmax a b -> f x = Some (g x)) -> is_RInt g a b I ->
  ex_series (fun k => Rabs (u k) * 3 ^ k) -> (forall t, -1 <= t <= 1 -> is_series (fun k => u k * t ^ k) (g (c * t + d))) ->
  Rabs (integrate f a b - I) <= Rabs c * / 10 ^ 15 * Series (fun k => Rabs (u k) * 3 ^ k).
Proof.
  intros f g a b I u c d HF HI HU HS.
  assert (P1 : forall k, 1 <= 3 ^ k) by (intro k; apply pow_R1_Rle; lra).
  assert (HU1 : ex_series (fun k => Rabs (u k))).
  { apply (ex_series_le (K := R_AbsRing) (V := R_CompleteNormedModule) _ (fun k => Rabs (u k) * 3 ^ k)); [|exact HU]. intro k.
    change (Rabs (Rabs (u k)) <= Rabs (u k) * 3 ^ k). rewrite Rabs_Rabsolu. specialize (P1 k). pose proof (Rabs_pos (u k)). nra. }
  destruct (integrate_power_series f g a b I u HF HI HU1 HS) as [EX B]. fold c in B. eapply Rle_trans; [exact B|]. rewrite Rmult_assoc.
  apply Rmult_le_compat_l; [apply Rabs_pos|]. rewrite <- Series_scal_l. apply Series_le.
  - intro k. split; [apply Rmult_le_pos; [apply Rabs_pos|left; apply delta_pos]|]. pose proof (delta_growth k). pose proof (Rabs_pos (u k)). nra.
  - apply (ex_series_scal_l (K := R_AbsRing) (V := R_NormedModule) (/ 10 ^ 15) (fun k => Rabs (u k) * 3 ^ k)). exact HU.
Qed.
Print Assumptions integrate_analytic.
(** the exponential, on every interval *)
Theorem integrate_exp : forall a b, a <= b ->
  Rabs (integrate (fun x => Some (exp x)) a b - (exp b - exp a)) <= (b - a) / 2 * / 10 ^ 15 * exp (2 * b - a).
Proof.
  intros a b Hab. set (c := / 2 * (b - a)). set (d := / 2 * (a + b)).
  assert (PS : forall x, is_series (fun k => exp d * (x ^ k / INR (fact k))) (exp d * exp x)).
  { intro x. apply (is_series_scal_l (K := R_AbsRing) (V := R_NormedModule) (exp d) (fun k => x ^ k / INR (fact k))). pose proof (is_exp_Reals x) as E. apply is_pseries_R in E.
    apply (is_series_ext (fun k => / INR (fact k) * x ^ k)); [intro k; unfold Rdiv; apply Rmult_comm|]. exact E. }
  assert (HI : is_RInt exp a b (exp b - exp a)).
  { apply (is_RInt_derive exp exp); intros; [apply is_derive_exp|apply continuous_exp]. }
  set (u := fun k => exp d * (c ^ k / INR (fact k))).
  assert (Hc : 0 <= c) by (unfold c; lra).
  assert (AU : forall k, Rabs (u k) * 3 ^ k = exp d * ((3 * c) ^ k / INR (fact k))).
  { intro k. unfold u. rewrite Rabs_right.
    - rewrite Rpow_mult_distr. unfold Rdiv. ring.
    - apply Rle_ge, Rmult_le_pos; [left; apply exp_pos|]. apply Rmult_le_pos; [apply pow_le; exact Hc|left; apply Rinv_0_lt_compat, INR_fact_lt_0]. }
  assert (SU : is_series (fun k => Rabs (u k) * 3 ^ k) (exp d * exp (3 * c))) by (apply (is_series_ext (fun k => exp d * ((3 * c) ^ k / INR (fact k)))); [intro; symmetry; apply AU|apply PS]).
  pose proof (integrate_analytic (fun x => Some (exp x)) exp a b (exp b - exp a) u) as T. cbv zeta in T. fold c in T. fold d in T.
  rewrite (is_series_unique _ _ SU), <- exp_plus, (Rabs_right c) in T by lra.
  replace (2 * b - a) with (d + 3 * c) by (unfold c, d; field). replace ((b - a) / 2) with c by (unfold c; field).
  apply T; [reflexivity|exact HI|eexists; exact SU|].
  intros t _. replace (c * t + d) with (d + c * t) by ring. rewrite exp_plus.
  apply (is_series_ext (fun k => exp d * ((c * t) ^ k / INR (fact k)))); [|apply PS]. intro k. unfold u. rewrite Rpow_mult_distr. unfold Rdiv.
  match goal with |- ?x = ?y => change (@eq R x y) end. ring.
Qed.
Print Assumptions integrate_exp.

(** ** Lipschitz functions *)
(** cells of width [wt i] laid out from -1: the cost is the weight times the distance
    from the node to the far end of its cell *)
Fixpoint cost (y : R) (l : list nat) : R :=
  match l with [] => 0 | i :: l' => wt i * Rmax (Rabs (y - nd i)) (Rabs (y + wt i - nd i)) + cost (y + wt i) l' end.
Fixpoint zcost (Y : Z) (l : list (Z * Z)) : Z :=
  match l with [] => 0%Z | (W, X) :: l' => ((W + 1) * (Z.max (Z.abs (Y - X)) (Z.abs (Y + W - X)) + 300) + zcost (Y + W) l')%Z end.
Lemma zcost_spec : forall l y Y n, (forall i, In i l -> In i (seq 0 100)) -> (n + length l <= 100)%nat ->
  Rabs (y - IZR Y / IZR B64) <= INR n * ulp -> cost y l <= IZR (zcost Y (map zrow l)) / (IZR B64 * IZR B64).
Proof.
  induction l as [|i l IH]; intros y Y n HL Hn HY; [simpl; unfold Rdiv; rewrite Rmult_0_l; lra|].
  destruct (row_spec i (HL i (or_introl eq_refl))) as (W0 & _ & _ & HW & HX). cbn [cost map]. destruct (zrow i) as [W X] eqn:ZR. cbn [zcost fst snd] in *.
  assert (HI : cost (y + wt i) l <= IZR (zcost (Y + W) (map zrow l)) / (IZR B64 * IZR B64)).
  { apply (IH _ _ (S n)); [intros j Hj; apply HL; right; exact Hj|simpl in Hn; lia|]. rewrite plus_IZR, S_INR. apply Rabs_le_between in HY. apply Rabs_le. unfold Rdiv in *. lra. }
  assert (NB : 0 <= INR n <= 100). { split; [apply pos_INR|]. replace 100 with (INR 100) by (rewrite INR_IZR_INZ; reflexivity). apply le_INR. simpl in Hn. lia. }
  pose proof ulp_pos as UP. pose proof B64_pos as BP.
  set (M := Z.max (Z.abs (Y - X)) (Z.abs (Y + W - X))) in *.
  assert (MM : Rmax (Rabs (y - nd i)) (Rabs (y + wt i - nd i)) <= IZR (M + 300) / IZR B64).
  { assert (M1 : Rabs (IZR Y - IZR X) <= IZR M) by (rewrite <- minus_IZR, <- abs_IZR; apply IZR_le; unfold M; lia).
    assert (M2 : Rabs (IZR Y + IZR W - IZR X) <= IZR M) by (rewrite <- plus_IZR, <- minus_IZR, <- abs_IZR; apply IZR_le; unfold M; lia).
    assert (S1 : Rabs (IZR Y / IZR B64 - IZR X / IZR B64) <= IZR M * ulp).
    { replace (IZR Y / IZR B64 - IZR X / IZR B64) with ((IZR Y - IZR X) * ulp) by (unfold ulp; field; lra). rewrite Rabs_mult, (Rabs_right ulp) by lra. apply Rmult_le_compat_r; lra. }
    assert (S2 : Rabs (IZR Y / IZR B64 + IZR W / IZR B64 - IZR X / IZR B64) <= IZR M * ulp).
    { replace (IZR Y / IZR B64 + IZR W / IZR B64 - IZR X / IZR B64) with ((IZR Y + IZR W - IZR X) * ulp) by (unfold ulp; field; lra). rewrite Rabs_mult, (Rabs_right ulp) by lra. apply Rmult_le_compat_r; lra. }
    rewrite plus_IZR. unfold Rdiv at 1. fold ulp. apply Rabs_le_between in HY, HX, S1, S2.
    assert (NU : INR n * ulp <= 100 * ulp) by (apply Rmult_le_compat_r; lra).
    apply Rmax_lub; apply Rabs_le; lra. }
  assert (WW : wt i <= IZR (W + 1) / IZR B64) by (rewrite plus_IZR; unfold ulp in *; unfold Rdiv in *; lra).
  rewrite plus_IZR, mult_IZR. unfold Rdiv at 1. rewrite Rmult_plus_distr_r. apply Rplus_le_compat; [|exact HI].
  replace (IZR (W + 1) * IZR (M + 300) * / (IZR B64 * IZR B64)) with (IZR (W + 1) / IZR B64 * (IZR (M + 300) / IZR B64)) by (field; lra).
  apply Rmult_le_compat; [exact W0| |exact WW|exact MM]. eapply Rle_trans; [apply Rabs_pos|apply Rmax_l].
Qed.
Lemma zcost_total : Z.leb (7 * zcost (- B64) zrows) (B64 * B64) = true.
Proof. vm_compute. reflexivity. Qed.
Lemma seventh : forall z b : R, 0 < b -> 7 * z <= b * b -> z / (b * b) <= / 7.
Proof.
  intros z b Hb H. apply Rmult_le_reg_r with (b * b); [apply Rmult_lt_0_compat; assumption|]. replace (z / (b * b) * (b * b)) with z by (field; lra). lra.
Qed.
Lemma zcost_real : 7 * IZR (zcost (- B64) (map zrow (seq 0 100))) <= IZR B64 * IZR B64.
Proof. rewrite <- zrows_eq, <- !mult_IZR. apply IZR_le, Z.leb_le, zcost_total. Qed.
Lemma start_exact : forall b, 0 < b -> Rabs (-1 - - b / b) <= INR 0 * ulp.
Proof. intros b Hb. replace (-1 - - b / b) with 0 by (field; lra). rewrite Rabs_R0. simpl. lra. Qed.
Lemma total_cost : cost (-1) (seq 0 100) <= / 7.
Proof.
  apply Rle_trans with (IZR (zcost (- B64) (map zrow (seq 0 100))) / (IZR B64 * IZR B64)).
  - apply (zcost_spec _ (-1) (- B64)%Z 0).
    + intros i H; exact H.
    + apply le_n.
    + rewrite (opp_IZR B64). exact (start_exact (IZR B64) B64_pos).
  - exact (seventh _ _ B64_pos zcost_real).
Qed.

Lemma cells : forall g L, 0 <= L -> (forall s t, -1 <= s <= 1 -> -1 <= t <= 1 -> Rabs (g s - g t) <= L * Rabs (s - t)) -> ex_RInt g (-1) 1 ->
  forall l y, (forall i, In i l -> In i (seq 0 100)) -> -1 <= y -> y + isum l wt <= 1 ->
  exists J : R, is_RInt g y (y + isum l wt) J /\ Rabs (isum l (fun i => wt i * g (nd i)) - J) <= L * cost y l.
Proof.
  intros g L HL0 HL EX. induction l as [|i l IH]; intros y HI Hy H1.
  - exists 0. simpl in *. rewrite Rplus_0_r. split; [apply (is_RInt_point (V := R_NormedModule))|]. rewrite Rminus_0_r, Rabs_R0. lra.
  - destruct (row_spec i (HI i (or_introl eq_refl))) as (W & X & _). cbn [isum cost] in *.
    assert (SN : 0 <= isum l wt).
    { replace 0 with (isum l (fun _ => 0)) by (rewrite isum_const; ring). apply isum_le. intros j Hj. apply (row_spec j (HI j (or_intror Hj))). }
    destruct (IH (y + wt i)) as (J & HJ & EJ); [intros j Hj; apply HI; right; exact Hj|lra|lra|].
    assert (EC : ex_RInt g y (y + wt i)).
    { apply (ex_RInt_Chasles_1 (V := R_CompleteNormedModule) g y (y + wt i) 1); [lra|]. apply (ex_RInt_Chasles_2 (V := R_CompleteNormedModule) g (-1) y 1); [lra|exact EX]. }
    destruct EC as [C HC]. exists (C + J). split.
    + replace (y + (wt i + isum l wt)) with (y + wt i + isum l wt) by ring. apply (is_RInt_Chasles (V := R_NormedModule) g y (y + wt i)); assumption.
    + set (D := Rmax (Rabs (y - nd i)) (Rabs (y + wt i - nd i))).
      assert (HD : Rabs (wt i * g (nd i) - C) <= L * (wt i * D)).
      { assert (K : is_RInt (fun t => g (nd i) - g t) y (y + wt i) (wt i * g (nd i) - C)).
        { replace (wt i * g (nd i)) with (scal (y + wt i - y) (g (nd i))) by (unfold scal; simpl; unfold mult; simpl; ring).
          apply (is_RInt_minus (V := R_NormedModule)); [apply (is_RInt_const (V := R_NormedModule))|exact HC]. }
        replace (L * (wt i * D)) with ((y + wt i - y) * (L * D)) by ring.
        apply (norm_RInt_le_const (fun t => g (nd i) - g t) y (y + wt i) (wt i * g (nd i) - C) (L * D)); [lra| |exact K].
        intros t Ht. change (Rabs (g (nd i) - g t) <= L * D). apply Rabs_le_between in X.
        eapply Rle_trans; [apply HL; lra|]. apply Rmult_le_compat_l; [exact HL0|]. unfold D.
        pose proof (Rmax_l (Rabs (y - nd i)) (Rabs (y + wt i - nd i))) as R1. pose proof (Rmax_r (Rabs (y - nd i)) (Rabs (y + wt i - nd i))) as R2.
        set (m := Rmax _ _) in *. apply Rabs_le_between in R1, R2. apply Rabs_le. lra. }
      replace (wt i * g (nd i) + isum l (fun i => wt i * g (nd i)) - (C + J)) with ((wt i * g (nd i) - C) + (isum l (fun i => wt i * g (nd i)) - J)) by ring.
      eapply Rle_trans; [apply Rabs_triang|]. fold D. lra.
Qed.
(** the weights sum to slightly less than two *)
Lemma zweights : Z.leb (nth 0 moment_table 0%Z + 100 * B64) (2 * (B64 * B64)) = true.
Proof. vm_compute. reflexivity. Qed.
Lemma moment0_wt : moment 0 = isum (seq 0 100) wt.
Proof. unfold moment, qsum. apply isum_ext. intros i _. simpl. ring. Qed.
Lemma two_bound : forall z b m, 0 < b -> z + 100 * b <= 2 * (b * b) -> m - z / (b * b) <= 100 * / b -> m <= 2.
Proof.
  intros z b m Hb H H1. assert (H2 : z / (b * b) + 100 * / b <= 2); [|lra].
  apply Rmult_le_reg_r with (b * b); [apply Rmult_lt_0_compat; assumption|]. replace ((z / (b * b) + 100 * / b) * (b * b)) with (z + 100 * b) by (field; lra). lra.
Qed.
Lemma weights_at_most_two : isum (seq 0 100) wt <= 2.
Proof.
  rewrite <- moment0_wt. apply (two_bound (IZR (zsum zrows 0)) (IZR B64)); [exact B64_pos| |].
  - rewrite <- (zmoments_nth zrows 100 0), <- moment_table_eq by lia. rewrite <- !mult_IZR, <- plus_IZR. apply IZR_le, Z.leb_le, zweights.
  - pose proof (zsum_spec 0) as Z. eapply Rle_trans; [apply Rle_abs|]. eapply Rle_trans; [exact Z|]. unfold ulp. simpl (INR 0). lra.
Qed.

Lemma lipschitz_rule : forall g L J, 0 <= L -> (forall s t, -1 <= s <= 1 -> -1 <= t <= 1 -> Rabs (g s - g t) <= L * Rabs (s - t)) ->
  is_RInt g (-1) 1 J -> Rabs (qsum g - J) <= L * (/ 7 + delta 0) + delta 0 * Rabs (g 0).
Proof.
  intros g L J HL0 HL HJ. set (h := fun t => g t - g 0). set (W := isum (seq 0 100) wt).
  assert (W2 : 2 - delta 0 <= W <= 2). { pose proof moment0 as M. rewrite moment0_wt in M. fold W in M. apply Rabs_le_between in M. pose proof weights_at_most_two. fold W in H. lra. }
  assert (D1 : 0 < delta 0 < 1). { unfold delta, inv_delta. cbn [Nat.leb]. change (IZR (10 ^ 15)) with 1000000000000000. lra. }
  assert (HH : is_RInt h (-1) 1 (J - 2 * g 0)).
  { unfold h. apply (is_RInt_minus (V := R_NormedModule)); [exact HJ|].
    replace (2 * g 0) with (scal (1 - -1) (g 0)) by (unfold scal; simpl; unfold mult; simpl; ring). apply (is_RInt_const (V := R_NormedModule)). }
  assert (LH : forall s t, -1 <= s <= 1 -> -1 <= t <= 1 -> Rabs (h s - h t) <= L * Rabs (s - t)).
  { intros s t Hs Ht. unfold h. replace (g s - g 0 - (g t - g 0)) with (g s - g t) by ring. apply HL; assumption. }
  destruct (cells h L HL0 LH (ex_intro _ _ HH) (seq 0 100) (-1) (fun i H => H) ltac:(lra) ltac:(fold W; lra)) as (K & HK & EK). fold W in HK.
  change (isum (seq 0 100) (fun i => wt i * h (nd i))) with (qsum h) in EK.
  assert (EQ : qsum h = qsum g - g 0 * W).
  { unfold h. rewrite (qsum_ext _ (fun t => g t + -1 * g 0)) by (intros; ring). rewrite qsum_plus, (qsum_const (-1 * g 0)), moment0_wt. fold W. ring. }
  assert (ER : ex_RInt h (-1 + W) 1) by (apply (ex_RInt_Chasles_2 (V := R_CompleteNormedModule) h (-1) (-1 + W) 1); [lra|eexists; exact HH]).
  destruct ER as [Q HQ]. pose proof (is_RInt_Chasles (V := R_NormedModule) h (-1) (-1 + W) 1 K Q HK HQ) as HT.
  pose proof (is_RInt_unique _ _ _ _ HH) as U1. pose proof (is_RInt_unique _ _ _ _ HT) as U2. unfold plus in U2; simpl in U2.
  assert (BQ : Rabs Q <= (1 - (-1 + W)) * L).
  { apply (norm_RInt_le_const h (-1 + W) 1 Q L); [lra| |exact HQ]. intros t Ht. change (Rabs (h t) <= L).
    replace (h t) with (h t - h 0) by (unfold h; ring). eapply Rle_trans; [apply LH; lra|]. rewrite <- (Rmult_1_r L) at 2. apply Rmult_le_compat_l; [exact HL0|]. apply Rabs_le. lra. }
  pose proof total_cost as TC.
  replace (qsum g - J) with ((qsum h - K) - Q + g 0 * (W - 2)) by (rewrite EQ; lra).
  eapply Rle_trans; [apply Rabs_triang|]. eapply Rle_trans; [apply Rplus_le_compat_r, Rabs_triang|]. rewrite Rabs_Ropp, Rabs_mult.
  assert (T1 : L * cost (-1) (seq 0 100) <= L * / 7) by (apply Rmult_le_compat_l; assumption).
  assert (T2 : (1 - (-1 + W)) * L <= delta 0 * L) by (apply Rmult_le_compat_r; lra).
  assert (T3 : Rabs (g 0) * Rabs (W - 2) <= Rabs (g 0) * delta 0) by (apply Rmult_le_compat_l; [apply Rabs_pos|apply Rabs_le; lra]).
  lra.
Qed.
(** A function that is merely Lipschitz is integrated at least as well as by a
    midpoint rule with seven points. *)
Theorem integrate_lipschitz : forall (f : R -> option R) (g : R -> R) a b I L,
  let c := / 2 * (b - a) in let d := / 2 * (a + b) in
  (forall x, Rmin a b <= x <= Rmax a b -> f x = Some (g x)) -> is_RInt g a b I -> 0 <= L ->
  (forall x y, Rmin a b <= x <= Rmax a b -> Rmin a b <= y <= Rmax a b -> Rabs (g x - g y) <= L * Rabs (x - y)) ->
  Rabs (integrate f a b - I) <= Rabs c * (L * Rabs c * (/ 7 + delta 0) + delta 0 * Rabs (g d)).
Proof.
  intros f g a b I L c d HF HI HL0 HL. rewrite (integrate_qsum f g a b HF). fold c. fold d.
  destruct (Req_dec c 0) as [C0|C0].
  - assert (AB : a = b) by (unfold c in C0; lra). subst b. rewrite C0. pose proof (is_RInt_point (V := R_NormedModule) g a) as Z.
    pose proof (is_RInt_unique _ _ _ _ HI) as U1. pose proof (is_RInt_unique _ _ _ _ Z) as U2. rewrite U1 in U2. rewrite U2. change zero with 0.
    rewrite !Rmult_0_l, Rminus_0_r, Rabs_R0. lra.
  - pose proof (change_variables g a b I HI) as HI'. cbv zeta in HI'. fold c in HI'. fold d in HI'.
    assert (HJ : is_RInt (fun t => g (c * t + d)) (-1) 1 (/ c * I)).
    { apply (is_RInt_ext (fun t => scal (/ c) (c * g (c * t + d)))).
      - intros t _. unfold scal; simpl; unfold mult; simpl. field. exact C0.
      - apply (is_RInt_scal (V := R_NormedModule)). exact HI'. }
    assert (IN : forall t, -1 <= t <= 1 -> Rmin a b <= c * t + d <= Rmax a b) by (intros t Ht; unfold c, d, Rmin, Rmax; destruct (Rle_dec a b); nra).
    assert (E : Rabs (qsum (fun t => g (c * t + d)) - / c * I) <= L * Rabs c * (/ 7 + delta 0) + delta 0 * Rabs (g (c * 0 + d))).
    { apply (lipschitz_rule (fun t => g (c * t + d)) (L * Rabs c) (/ c * I)); [apply Rmult_le_pos; [exact HL0|apply Rabs_pos]| |exact HJ].
      intros s t Hs Ht. eapply Rle_trans; [apply HL; apply IN; assumption|]. replace (c * s + d - (c * t + d)) with (c * (s - t)) by ring. rewrite Rabs_mult. lra. }
    replace (c * 0 + d) with d in E by ring.
    replace (c * qsum (fun t => g (c * t + d)) - I) with (c * (qsum (fun t => g (c * t + d)) - / c * I)) by (field; exact C0).
    rewrite Rabs_mult. apply Rmult_le_compat_l; [apply Rabs_pos|exact E].
Qed.
Print Assumptions integrate_lipschitz.

(** ** What the rule cannot see *)
Definition spike (x : R) : R := Rmax 0 (/ 11 - Rabs x).
Lemma nodes_avoid_zero : forallb (fun i => let x := nth i ABSCISSAE (dec 0 0) in Z.leb (10 ^ snd x) (11 * Z.abs (fst x))) (seq 0 100) = true.
Proof. vm_compute. reflexivity. Qed.
Lemma nodes_avoid_zero_real : forall i, In i (seq 0 100) -> / 11 <= Rabs (nd i).
Proof.
  intros i Hi. pose proof nodes_avoid_zero as N. rewrite forallb_forall in N. specialize (N i Hi). cbv zeta in N. apply Z.leb_le in N.
  pose proof rows_ok as R. rewrite forallb_forall in R. specialize (R i Hi). unfold row_ok in R. rewrite !Bool.andb_true_iff, !Z.leb_le in R. destruct R as [[[_ R3] _] _].
  unfold nd, dval. set (x := nth i ABSCISSAE (dec 0 0)) in *. apply IZR_le in N. rewrite mult_IZR, abs_IZR in N.
  assert (P : 0 < IZR (10 ^ snd x)) by (apply IZR_lt, Z.pow_pos_nonneg; lia). unfold Rdiv. rewrite Rabs_mult, (Rabs_right (/ _)) by (left; apply Rinv_0_lt_compat; exact P).
  apply Rmult_le_reg_r with (IZR (10 ^ snd x)); [exact P|]. rewrite Rmult_assoc, Rinv_l by lra. lra.
Qed.
Lemma spike_integral : is_RInt spike (-1) 1 (/ 121).
Proof.
  assert (Z : forall u v, is_RInt (fun _ => 0) u v 0).
  { intros u v. pose proof (is_RInt_const (V := R_NormedModule) u v 0) as Z. unfold scal in Z; simpl in Z; unfold mult in Z; simpl in Z. rewrite Rmult_0_r in Z. exact Z. }
  assert (A1 : is_RInt spike (-1) (- / 11) 0).
  { apply (is_RInt_ext (fun _ => 0)); [|apply Z]. intros x Hx. rewrite Rmin_left, Rmax_right in Hx by lra. unfold spike. rewrite Rabs_left, Rmax_left by lra. reflexivity. }
  assert (A2 : is_RInt spike (- / 11) 0 (/ 242)).
  { apply (is_RInt_ext (fun x => / 11 + x)).
    - intros x Hx. rewrite Rmin_left, Rmax_right in Hx by lra. unfold spike. rewrite Rabs_left, Rmax_right by lra. unfold Rminus. rewrite Ropp_involutive. reflexivity.
    - replace (/ 242) with ((/ 11 * 0 + 0 ^ 2 / 2) - (/ 11 * - / 11 + (- / 11) ^ 2 / 2)) by field.
      apply (is_RInt_derive (fun x => / 11 * x + x ^ 2 / 2) (fun x => / 11 + x)).
      + intros x _. auto_derive; [trivial|]. match goal with |- ?u = ?v => change (@eq R u v) end. field.
      + intros x _. apply (ex_derive_continuous (fun x => / 11 + x)). auto_derive. trivial. }
  assert (A3 : is_RInt spike 0 (/ 11) (/ 242)).
  { apply (is_RInt_ext (fun x => / 11 - x)).
    - intros x Hx. rewrite Rmin_left, Rmax_right in Hx by lra. unfold spike. rewrite Rabs_right, Rmax_right by lra. reflexivity.
    - replace (/ 242) with ((/ 11 * / 11 - (/ 11) ^ 2 / 2) - (/ 11 * 0 - 0 ^ 2 / 2)) by field.
      apply (is_RInt_derive (fun x => / 11 * x - x ^ 2 / 2) (fun x => / 11 - x)).
      + intros x _. auto_derive; [trivial|]. match goal with |- ?u = ?v => change (@eq R u v) end. field.
      + intros x _. apply (ex_derive_continuous (fun x => / 11 - x)). auto_derive. trivial. }
  assert (A4 : is_RInt spike (/ 11) 1 0).
  { apply (is_RInt_ext (fun _ => 0)); [|apply Z]. intros x Hx. rewrite Rmin_left, Rmax_right in Hx by lra. unfold spike. rewrite Rabs_right, Rmax_left by lra. reflexivity. }
  pose proof (is_RInt_Chasles (V := R_NormedModule) _ _ _ _ _ _ (is_RInt_Chasles (V := R_NormedModule) _ _ _ _ _ _ A1 A2) (is_RInt_Chasles (V := R_NormedModule) _ _ _ _ _ _ A3 A4)) as T.
  unfold plus in T; simpl in T. replace (/ 121) with (0 + / 242 + (/ 242 + 0)) by field. exact T.
Qed.
(** Accuracy for every integrand is refuted: a nonnegative function of slope one
    that lives between two nodes is given the integral zero. *)
Theorem integrate_misses_spike_refuted :
  (forall x y, Rabs (spike x - spike y) <= Rabs (x - y)) /\ (forall x, 0 <= spike x) /\
  is_RInt spike (-1) 1 (/ 121) /\ integrate (fun x => Some (spike x)) (-1) 1 = 0.
Proof.
  split; [|split; [|split; [apply spike_integral|]]].
  - intros x y. unfold spike, Rmax, Rabs. destruct (Rle_dec 0 (/ 11 - (if Rcase_abs x then - x else x))), (Rle_dec 0 (/ 11 - (if Rcase_abs y then - y else y))), (Rcase_abs x), (Rcase_abs y), (Rcase_abs (x - y)); repeat destruct Rcase_abs; lra.
  - intro x. apply Rmax_l.
  - unfold integrate. rewrite tanhsinh_qsum. unfold qsum. rewrite (isum_ext _ _ (fun _ => 0)); [rewrite isum_const; ring|].
    intros i Hi. pose proof (nodes_avoid_zero_real i Hi) as N. replace (/ 2 * (1 - -1) * nd i + / 2 * (-1 + 1)) with (nd i) by field. unfold spike. rewrite Rmax_left by lra. ring.
Qed.
Print Assumptions integrate_misses_spike_refuted.
(** An integrand that is nowhere finite silently integrates to zero. *)
Theorem integrate_nonfinite_refuted : forall a b, integrate (fun _ => None) a b = 0.
Proof. intros. unfold integrate. rewrite tanhsinh_qsum, qsum_const. ring. Qed.
Print Assumptions integrate_nonfinite_refuted.

(** ** Laws of the integral that hold *)
Theorem integrate_linear : forall (f g : R -> R) p q a b,
  integrate (fun x => Some (p * f x + q * g x)) a b = p * integrate (fun x => Some (f x)) a b + q * integrate (fun x => Some (g x)) a b.
Proof.
  intros. unfold integrate. rewrite !tanhsinh_qsum. rewrite (qsum_plus (fun t => p * f _) (fun t => q * g _)).
  rewrite (qsum_scal p (fun t => f _)), (qsum_scal q (fun t => g _)). ring.
Qed.
Print Assumptions integrate_linear.
Theorem integrate_monotone : forall (f g : R -> R) a b, a <= b -> (forall x, a <= x <= b -> f x <= g x) ->
  integrate (fun x => Some (f x)) a b <= integrate (fun x => Some (g x)) a b.
Proof.
  intros f g a b Hab H. unfold integrate. rewrite !tanhsinh_qsum. apply Rmult_le_compat_l; [lra|]. apply qsum_le. intros t Ht. apply H. nra.
Qed.
Print Assumptions integrate_monotone.
Theorem integrate_bounds : forall (f : R -> R) a b m M, a <= b -> (forall x, a <= x <= b -> m <= f x <= M) ->
  Rabs (integrate (fun _ => Some 1) a b - (b - a)) <= (b - a) * / 10 ^ 15 /\
  m * integrate (fun _ => Some 1) a b <= integrate (fun x => Some (f x)) a b <= M * integrate (fun _ => Some 1) a b.
Proof.
  intros f a b m M Hab H. assert (E : integrate (fun _ => Some 1) a b = / 2 * (b - a) * moment 0) by (unfold integrate; rewrite tanhsinh_qsum, qsum_const; ring).
  split.
  - rewrite E. pose proof moment0 as Z. pose proof (delta_growth 0) as G. rewrite pow_O, Rmult_1_r in G. apply Rabs_le_between in Z.
    replace (/ 2 * (b - a) * moment 0 - (b - a)) with (/ 2 * (b - a) * (moment 0 - 2)) by field. rewrite Rabs_mult, (Rabs_right (/ 2 * (b - a))) by lra.
    assert (A : Rabs (moment 0 - 2) <= / 10 ^ 15) by (apply Rabs_le; lra). assert (P : 0 < / 10 ^ 15) by (apply Rinv_0_lt_compat, pow_lt; lra). nra.
  - assert (S : forall k, k * integrate (fun _ => Some 1) a b = integrate (fun _ => Some k) a b) by (intro k; rewrite E; unfold integrate; rewrite tanhsinh_qsum, qsum_const; ring).
    rewrite !S. split; apply (integrate_monotone (fun _ => _) f) || apply (integrate_monotone f (fun _ => _)); try assumption; intros x Hx; specialize (H x Hx); lra.
Qed.
Print Assumptions integrate_bounds.
(** Swapping the limits changes the sign, up to the asymmetry of the table. *)
Definition mirror_ok (i : nat) : bool :=
  let x := nth i ABSCISSAE (dec 0 0) in let y := nth (99 - i) ABSCISSAE (dec 0 0) in
  let w := nth i WEIGHTS (dec 0 0) in let v := nth (99 - i) WEIGHTS (dec 0 0) in
  (Z.eqb (fst w) (fst v) && Z.eqb (snd w) (snd v) && Z.leb (5 * 10 ^ 15 * Z.abs (fst x * 10 ^ snd y + fst y * 10 ^ snd x)) (10 ^ snd x * 10 ^ snd y))%bool.
Lemma mirror : forallb mirror_ok (seq 0 100) = true.
Proof. vm_compute. reflexivity. Qed.
Lemma mirror_real : forall i, In i (seq 0 100) -> wt i = wt (99 - i) /\ 5 * 10 ^ 15 * Rabs (nd i + nd (99 - i)) <= 1.
Proof.
  intros i Hi. pose proof mirror as N. rewrite forallb_forall in N. specialize (N i Hi). unfold mirror_ok in N. rewrite !Bool.andb_true_iff, !Z.eqb_eq, Z.leb_le in N. destruct N as [[N1 N2] N3].
  assert (S : forall j, In j (seq 0 100) -> (0 <= snd (nth j ABSCISSAE (dec 0 0)))%Z).
  { intros j Hj. pose proof rows_ok as R. rewrite forallb_forall in R. specialize (R j Hj). unfold row_ok in R. rewrite !Bool.andb_true_iff, !Z.leb_le in R. destruct R as [[[_ R3] _] _]. exact R3. }
  pose proof (S i Hi) as S1. assert (Hj : In (99 - i)%nat (seq 0 100)) by (apply in_seq; apply in_seq in Hi; lia). pose proof (S _ Hj) as S2. unfold wt, nd, dval. rewrite N1, N2. split; [reflexivity|].
  set (x := nth i ABSCISSAE (dec 0 0)) in *. set (y := nth (99 - i) ABSCISSAE (dec 0 0)) in *.
  assert (P1 : 0 < IZR (10 ^ snd x)) by (apply IZR_lt, Z.pow_pos_nonneg; lia). assert (P2 : 0 < IZR (10 ^ snd y)) by (apply IZR_lt, Z.pow_pos_nonneg; lia).
  apply IZR_le in N3. rewrite !mult_IZR, abs_IZR, plus_IZR, !mult_IZR in N3. change (IZR (10 ^ 15)) with 1000000000000000 in N3.
  replace (IZR (fst x) / IZR (10 ^ snd x) + IZR (fst y) / IZR (10 ^ snd y)) with ((IZR (fst x) * IZR (10 ^ snd y) + IZR (fst y) * IZR (10 ^ snd x)) * / (IZR (10 ^ snd x) * IZR (10 ^ snd y))) by (field; lra).
  assert (PP : 0 < IZR (10 ^ snd x) * IZR (10 ^ snd y)) by (apply Rmult_lt_0_compat; assumption).
  rewrite Rabs_mult, (Rabs_right (/ _)) by (left; apply Rinv_0_lt_compat; exact PP). replace (10 ^ 15) with 1000000000000000 by ring.
  apply Rmult_le_reg_r with (IZR (10 ^ snd x) * IZR (10 ^ snd y)); [exact PP|]. set (U := Rabs _) in *. set (V := IZR (10 ^ snd x) * IZR (10 ^ snd y)) in *. clearbody U V.
  replace (5 * 1000000000000000 * (U * / V) * V) with (5 * 1000000000000000 * U) by (field; lra). lra.
Qed.
Lemma isum_rev : forall l (u : nat -> R), isum (rev l) u = isum l u.
Proof.
  assert (G : forall l m u, isum (l ++ m) u = isum l u + isum m u) by (induction l as [|i l IH]; intros m u; simpl; [ring|]; rewrite IH; ring).
  induction l as [|i l IH]; intro u; simpl; [reflexivity|]. rewrite G, IH. simpl. ring.
Qed.
Lemma isum_mirror : forall u, isum (seq 0 100) u = isum (seq 0 100) (fun i => u (99 - i)%nat).
Proof.
  intro u. assert (E : rev (seq 0 100) = map (fun i => 99 - i)%nat (seq 0 100)) by (vm_compute; reflexivity).
  rewrite <- isum_rev, E. generalize (seq 0 100) as l. induction l as [|i l IH]; cbn [map isum]; [reflexivity|]. rewrite IH. reflexivity.
Qed.
Theorem integrate_reversed : forall (f : R -> R) a b L, a <= b -> 0 <= L ->
  (forall x y, a <= x <= b -> a <= y <= b -> Rabs (f x - f y) <= L * Rabs (x - y)) ->
  Rabs (integrate (fun x => Some (f x)) b a + integrate (fun x => Some (f x)) a b) <= L * (b - a) ^ 2 / 10 ^ 15.
Proof.
  intros f a b L Hab HL0 HL. unfold integrate. rewrite !tanhsinh_qsum. set (c := / 2 * (b - a)). set (d := / 2 * (a + b)).
  replace (/ 2 * (a - b)) with (- c) by (unfold c; ring). replace (/ 2 * (b + a)) with d by (unfold d; ring).
  assert (Hc : 0 <= c) by (unfold c; lra).
  assert (E : Rabs (qsum (fun t => f (c * t + d)) - qsum (fun t => f (- c * t + d))) <= 2 * (L * c * / (5 * 10 ^ 15))).
  { assert (P : 0 < / (5 * 10 ^ 15)) by (apply Rinv_0_lt_compat, Rmult_lt_0_compat; [lra|apply pow_lt; lra]).
    replace (qsum (fun t => f (c * t + d)) - qsum (fun t => f (- c * t + d))) with (isum (seq 0 100) (fun i => wt i * (f (c * nd i + d) - f (- c * nd (99 - i) + d)))).
    - eapply Rle_trans; [apply isum_abs|]. eapply Rle_trans; [apply (isum_le _ _ (fun i => (L * c * / (5 * 10 ^ 15)) * wt i))|].
      + intros i Hi. destruct (row_spec i Hi) as (W & X & _). destruct (mirror_real i Hi) as [_ MR].
        assert (Hj : In (99 - i)%nat (seq 0 100)) by (apply in_seq; apply in_seq in Hi; lia). destruct (row_spec _ Hj) as (_ & Y & _).
        rewrite Rabs_mult, (Rabs_right (wt i)) by lra. rewrite (Rmult_comm (wt i)). apply Rmult_le_compat_r; [exact W|].
        apply Rabs_le_between in X, Y. eapply Rle_trans; [apply HL; unfold c, d; nra|].
        replace (c * nd i + d - (- c * nd (99 - i) + d)) with (c * (nd i + nd (99 - i))) by ring. rewrite Rabs_mult, (Rabs_right c) by lra. rewrite <- Rmult_assoc.
        apply Rmult_le_compat_l; [apply Rmult_le_pos; assumption|]. assert (P5 : 0 < 5 * 10 ^ 15) by (apply Rmult_lt_0_compat; [lra|apply pow_lt; lra]).
        apply Rmult_le_reg_l with (5 * 10 ^ 15); [exact P5|]. rewrite Rinv_r by lra. exact MR.
      + rewrite isum_scal. pose proof weights_at_most_two as W2. rewrite (Rmult_comm 2). apply Rmult_le_compat_l; [|exact W2].
        apply Rmult_le_pos; [apply Rmult_le_pos; assumption|lra].
    - unfold qsum. rewrite (isum_mirror (fun i => wt i * f (- c * nd i + d))).
      rewrite (isum_ext _ _ (fun i => wt i * f (c * nd i + d) + -1 * (wt (99 - i) * f (- c * nd (99 - i) + d)))).
      + rewrite isum_plus, isum_scal. ring.
      + intros i Hi. destruct (mirror_real i Hi) as [<- _]. ring. }
  replace (- c * qsum (fun t => f (- c * t + d)) + c * qsum (fun t => f (c * t + d))) with (c * (qsum (fun t => f (c * t + d)) - qsum (fun t => f (- c * t + d)))) by ring.
  rewrite Rabs_mult, (Rabs_right c) by lra. eapply Rle_trans; [apply Rmult_le_compat_l; [exact Hc|exact E]|].
  replace (b - a) with (2 * c) by (unfold c; field). replace (L * (2 * c) ^ 2 / 10 ^ 15) with (4 * (L * c ^ 2 * / 10 ^ 15)) by (unfold Rdiv; ring).
  assert (P : 0 < / 10 ^ 15) by (apply Rinv_0_lt_compat, pow_lt; lra). rewrite Rinv_mult by (try lra; apply pow_nonzero; lra).
  assert (Q : 0 <= L * c ^ 2 * / 10 ^ 15) by (apply Rmult_le_pos; [apply Rmult_le_pos; [exact HL0|apply pow2_ge_0]|lra]).
  replace (c * (2 * (L * c * (/ 5 * / 10 ^ 15)))) with (2 / 5 * (L * c ^ 2 * / 10 ^ 15)) by (unfold Rdiv; ring). lra.
Qed.
Print Assumptions integrate_reversed.

(** ** Non-vacuity *)
Example near_polynomial_case : Rabs (integrate (fun x => Some (1 + 3 * x ^ 2)) (-1) 1 - 4) <= 1 * ((4 + delta 0) * 0 + poly_error [1; 0; 3]) /\ poly_error [1; 0; 3] <= / 10 ^ 14.
Proof.
  split.
  - pose proof (integrate_near_polynomial (fun x => Some (1 + 3 * x ^ 2)) (fun x => 1 + 3 * x ^ 2) (-1) 1 4 [1; 0; 3] 0) as P. cbv zeta in P.
    replace (Rabs (/ 2 * (1 - -1))) with 1 in P by (rewrite Rabs_right by lra; field). apply P; [reflexivity| |].
    + replace 4 with ((1 + 1 ^ 3) - (-1 + (-1) ^ 3)) by ring. apply (is_RInt_derive (fun x => x + x ^ 3) (fun x => 1 + 3 * x ^ 2)).
      * intros x _. auto_derive; [trivial|]. match goal with |- ?u = ?v => change (@eq R u v) end. ring.
      * intros x _. apply (ex_derive_continuous (fun x => 1 + 3 * x ^ 2)). auto_derive. trivial.
    + intros t _. unfold poly. simpl. match goal with |- Rabs ?z <= 0 => replace z with 0 by field end. rewrite Rabs_R0. lra.
  - unfold poly_error. simpl. unfold delta, inv_delta. cbn [Nat.leb]. change (IZR (10 ^ 15)) with 1000000000000000. rewrite Rabs_R0, Rabs_R1, (Rabs_right 3) by lra.
    replace (10 * _) with 100000000000000 by ring. lra.
Qed.
Example lipschitz_case : Rabs (integrate (fun x => Some (spike x)) (-1) 1 - / 121) <= Rabs (/ 2 * (1 - -1)) * (1 * Rabs (/ 2 * (1 - -1)) * (/ 7 + delta 0) + delta 0 * Rabs (spike (/ 2 * (-1 + 1)))).
Proof.
  apply (integrate_lipschitz (fun x => Some (spike x)) spike (-1) 1 (/ 121) 1); [reflexivity|apply spike_integral|lra|].
  intros x y _ _. destruct integrate_misses_spike_refuted as [H _]. rewrite Rmult_1_l. apply H.
Qed.
Example smooth_case : forall x k, -1 < x < 2 -> (k <= 12)%nat -> ex_derive_n exp k x /\ (0 <= x <= 1 -> Rabs (Derive_n exp 12 x) <= 3).
Proof.
  assert (D : forall k x, is_derive_n exp k x (exp x)).
  { induction k as [|k IH]; intro x; [reflexivity|]. apply (is_derive_ext exp).
    - intro t. symmetry. apply is_derive_n_unique, IH.
    - apply is_derive_exp. }
  intros x k _ _. split; [eapply ex_derive_n_is_derive_n || (destruct k; [exact I|eexists; apply (D (S k) x)])|].
  intro Hx. rewrite (is_derive_n_unique _ _ _ _ (D 12%nat x)). rewrite Rabs_right by (left; apply exp_pos).
  apply Rle_trans with (exp 1); [|apply exp_le_3]. destruct (Req_dec x 1) as [->|]; [lra|left; apply exp_increasing; lra].
Qed.
Example reversed_case : Rabs (integrate (fun x => Some (spike x)) 1 (-1) + integrate (fun x => Some (spike x)) (-1) 1) <= 1 * (1 - -1) ^ 2 / 10 ^ 15.
Proof. apply integrate_reversed; [lra|lra|]. intros x y _ _. destruct integrate_misses_spike_refuted as [H _]. rewrite Rmult_1_l. apply H. Qed.
