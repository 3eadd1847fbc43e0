(** C88, continued: closed forms of the moments, and their limits as the number of
    steps grows. *)
From Coq Require Import Reals List ZArith Lra Lia.
From Coquelicot Require Import Coquelicot.
From Verif Require Import Res InterpModel InterpProofs RList StatModel SpecialFns RGen DistModel DistGauss SimModel SimProps SimMoments.
Import ListNotations.
Open Scope R_scope.

(** ** Limits *)
Lemma exp_ge1 x : 1 + x <= exp x.
Proof. destruct (Req_dec x 0) as [->|N]; [rewrite exp_0; lra|]. left. apply exp_ineq1. exact N. Qed.
(** (1+d)^n is 1 + n d up to (n d)^2 *)
Lemma pow_expand d n : Rabs ((1 + d) ^ n - 1 - INR n * d) <= (1 + Rabs d) ^ n - 1 - INR n * Rabs d.
Proof.
  induction n as [|n IH]; [simpl; rewrite !Rmult_0_l, !Rminus_0_r; replace (1 - 1) with 0 by ring; rewrite Rabs_R0; lra|].
  rewrite S_INR. simpl pow. pose proof (Rabs_pos d) as P.
  replace ((1 + d) * (1 + d) ^ n - 1 - (INR n + 1) * d) with ((1 + d) * ((1 + d) ^ n - 1 - INR n * d) + INR n * (d * d)) by ring.
  replace ((1 + Rabs d) * (1 + Rabs d) ^ n - 1 - (INR n + 1) * Rabs d) with ((1 + Rabs d) * ((1 + Rabs d) ^ n - 1 - INR n * Rabs d) + INR n * (Rabs d * Rabs d)) by ring.
  eapply Rle_trans; [apply Rabs_triang|]. apply Rplus_le_compat.
  - rewrite Rabs_mult. apply Rmult_le_compat; try apply Rabs_pos; [|exact IH]. eapply Rle_trans; [apply Rabs_triang|]. rewrite Rabs_R1. lra.
  - rewrite !Rabs_mult. rewrite (Rabs_pos_eq (INR n)) by apply pos_INR. lra.
Qed.
Lemma exp_quad y : y <= 1 / 2 -> 0 <= exp y - 1 - y <= 2 * y ^ 2.
Proof.
  intro H. pose proof (exp_ge1 y). split; [lra|]. pose proof (exp_ge1 (- y)) as Q. assert (M : exp y * exp (- y) = 1) by (rewrite <- exp_plus, Rplus_opp_r; apply exp_0).
  pose proof (exp_pos y) as P. assert (K : exp y * (1 - y) <= 1) by nra.
  apply (Rmult_le_reg_r (1 - y)); [lra|]. apply Rle_trans with (y ^ 2); [nra|]. assert (0 <= y ^ 2) by nra. nra.
Qed.
Lemma exp_cubic y : Rabs y <= 1 / 2 -> Rabs (exp y - 1 - y - y ^ 2 / 2) <= 2 * Rabs y ^ 3.
Proof.
  intro H. set (f := fun t => exp t - 1 - t - t ^ 2 / 2).
  destruct (MVT_gen f 0 y (fun t => exp t - 1 - t)) as (c & Hc & E).
  - intros x _. unfold f. auto_derive; [trivial|]. match goal with |- ?u = ?v => change (@eq R u v) end. field.
  - intros x _. apply continuity_pt_filterlim. apply (ex_derive_continuous (K:=R_AbsRing) (V:=R_NormedModule) f). unfold f. auto_derive. trivial.
  - assert (C : Rabs c <= Rabs y). { unfold Rmin, Rmax in Hc. destruct (Rle_dec 0 y); unfold Rabs; destruct (Rcase_abs c), (Rcase_abs y); lra. }
    unfold f in E. rewrite exp_0 in E. replace (exp y - 1 - y - y ^ 2 / 2) with ((exp c - 1 - c) * y) by lra. rewrite Rabs_mult.
    assert (D : 0 <= exp c - 1 - c <= 2 * c ^ 2) by (apply exp_quad; pose proof (Rle_abs c); lra). rewrite (Rabs_pos_eq (exp c - 1 - c)) by lra.
    assert (S : c ^ 2 <= Rabs y ^ 2) by (rewrite <- (pow2_abs c); apply pow_incr; split; [apply Rabs_pos|exact C]).
    replace (2 * Rabs y ^ 3) with (2 * Rabs y ^ 2 * Rabs y) by ring. apply Rmult_le_compat_r; [apply Rabs_pos|lra].
Qed.
Lemma lim_div c : is_lim_seq (fun n => c / INR n) 0.
Proof.
  replace (Finite 0) with (Rbar_mult c 0) by (simpl; f_equal; ring). apply (is_lim_seq_ext (fun n => c * / INR n)); [intro n; reflexivity|].
  apply is_lim_seq_scal_l. apply (is_lim_seq_inv INR p_infty); [apply is_lim_seq_INR|discriminate].
Qed.
Lemma lim_eventually (c : R) (e : R) : 0 < e -> exists N, forall n, (N <= n)%nat -> (0 < n)%nat /\ Rabs (c / INR n) < e.
Proof.
  intros He. pose proof (lim_div c) as L. apply is_lim_seq_spec in L. destruct (L (mkposreal e He)) as [N HN]. exists (S N). intros n Hn. split; [lia|]. specialize (HN n ltac:(lia)). simpl in HN. rewrite Rminus_0_r in HN. exact HN.
Qed.
(** squeeze: |u_n - v| <= K / n eventually *)
Lemma lim_squeeze (u : nat -> R) (v K : R) : (exists N, forall n, (N <= n)%nat -> (0 < n)%nat /\ Rabs (u n - v) <= K / INR n) -> is_lim_seq u v.
Proof.
  intros [N H]. apply is_lim_seq_spec. intros e. destruct (lim_eventually K e (cond_pos e)) as [M HM]. exists (max N M). intros n Hn.
  eapply Rle_lt_trans; [apply H; lia|]. eapply Rle_lt_trans; [apply Rle_abs|]. apply HM. lia.
Qed.
Lemma exp_second c : is_lim_seq (fun n => INR n ^ 2 * (exp (c / INR n) - 1 - c / INR n)) (c ^ 2 / 2).
Proof.
  apply (lim_squeeze _ _ (2 * Rabs c ^ 3)). destruct (lim_eventually c (1 / 2) ltac:(lra)) as [N HN]. exists N. intros n Hn. destruct (HN n Hn) as [P Q]. split; [exact P|].
  assert (I : 0 < INR n) by (apply lt_0_INR; exact P). pose proof (exp_cubic (c / INR n) ltac:(lra)) as B.
  replace (INR n ^ 2 * (exp (c / INR n) - 1 - c / INR n) - c ^ 2 / 2) with (INR n ^ 2 * (exp (c / INR n) - 1 - c / INR n - (c / INR n) ^ 2 / 2)) by (field; lra).
  rewrite Rabs_mult, (Rabs_pos_eq (INR n ^ 2)) by (apply pow_le; lra).
  replace (2 * Rabs c ^ 3 / INR n) with (INR n ^ 2 * (2 * Rabs (c / INR n) ^ 3)).
  - apply Rmult_le_compat_l; [apply pow_le; lra|exact B].
  - unfold Rdiv. rewrite Rabs_mult, (Rabs_pos_eq (/ INR n)) by (left; apply Rinv_0_lt_compat; exact I). field. lra.
Qed.
(** n^2 d_n -> K gives n ((1 + d_n)^n - 1) -> K *)
Lemma pow_rate (d : nat -> R) (K : R) : is_lim_seq (fun n => INR n ^ 2 * d n) K -> is_lim_seq (fun n => INR n * ((1 + d n) ^ n - 1)) K.
Proof.
  intro H.
  assert (B : exists N, forall n, (N <= n)%nat -> (0 < n)%nat /\ Rabs (INR n * d n) <= (Rabs K + 1) / INR n).
  { apply is_lim_seq_spec in H. destruct (H (mkposreal 1 Rlt_0_1)) as [N HN]. exists (S N). intros n Hn. split; [lia|]. specialize (HN n ltac:(lia)). simpl in HN.
    assert (I : 0 < INR n) by (apply lt_0_INR; lia). apply (Rmult_le_reg_r (INR n)); [exact I|]. replace ((Rabs K + 1) / INR n * INR n) with (Rabs K + 1) by (field; lra).
    rewrite <- (Rabs_pos_eq (INR n)) at 2 by lra. rewrite <- Rabs_mult. replace (INR n * d n * INR n) with ((INR n ^ 2 * d n - K) + K) by ring. eapply Rle_trans; [apply Rabs_triang|]. simpl. lra. }
  apply (is_lim_seq_ext (fun n => INR n ^ 2 * d n + (INR n * ((1 + d n) ^ n - 1) - INR n ^ 2 * d n))); [intro n; ring|].
  replace (Finite K) with (Finite (K + 0)) by (f_equal; ring). apply is_lim_seq_plus'; [exact H|].
  apply (lim_squeeze _ _ (2 * (Rabs K + 1) ^ 2)). destruct B as [N HN]. destruct (lim_eventually (Rabs K + 1) (1 / 2) ltac:(lra)) as [M HM]. exists (max N M). intros n Hn.
  destruct (HN n ltac:(lia)) as [P Q]. destruct (HM n ltac:(lia)) as [_ Q2]. split; [exact P|]. assert (I : 0 < INR n) by (apply lt_0_INR; exact P).
  assert (A : Rabs (INR n * d n) = INR n * Rabs (d n)) by (rewrite Rabs_mult, (Rabs_pos_eq (INR n)) by lra; reflexivity). rewrite A in Q.
  assert (Z : 0 <= INR n * Rabs (d n)) by (apply Rmult_le_pos; [lra|apply Rabs_pos]).
  rewrite Rminus_0_r. replace (INR n * ((1 + d n) ^ n - 1) - INR n ^ 2 * d n) with (INR n * ((1 + d n) ^ n - 1 - INR n * d n)) by ring. rewrite Rabs_mult, (Rabs_pos_eq (INR n)) by lra.
  assert (E : Rabs ((1 + d n) ^ n - 1 - INR n * d n) <= 2 * ((Rabs K + 1) / INR n) ^ 2).
  { eapply Rle_trans; [apply pow_expand|]. apply Rle_trans with (exp (INR n * Rabs (d n)) - 1 - INR n * Rabs (d n)).
    - assert (W : (1 + Rabs (d n)) ^ n <= exp (INR n * Rabs (d n))).
      { rewrite <- Rpower_pow by (pose proof (Rabs_pos (d n)); lra). unfold Rpower. assert (LN : ln (1 + Rabs (d n)) <= Rabs (d n)).
        { pose proof (Rabs_pos (d n)). destruct (Req_dec (Rabs (d n)) 0) as [->|NZ]; [rewrite Rplus_0_r, ln_1; lra|]. rewrite <- (ln_exp (Rabs (d n))) at 2. left. apply ln_increasing; [lra|]. apply exp_ineq1. exact NZ. }
        destruct (Rle_lt_or_eq_dec _ _ LN) as [U|U]; [left; apply exp_increasing; apply Rmult_lt_compat_l; assumption|rewrite U; lra]. }
      lra.
    - pose proof (Rle_abs ((Rabs K + 1) / INR n)) as Q3. eapply Rle_trans; [apply exp_quad; lra|]. apply Rmult_le_compat_l; [lra|]. apply pow_incr. split; [exact Z|exact Q]. }
  eapply Rle_trans; [apply Rmult_le_compat_l; [lra|exact E]|]. right. field. lra.
Qed.
(** (1 + c/n + a/n^2)^n is e^c + e^c (a - c^2/2) / n + o(1/n) *)
Lemma growth_rate c a : is_lim_seq (fun n => INR n * ((1 + c / INR n + a / INR n ^ 2) ^ n - exp c)) (exp c * (a - c ^ 2 / 2)).
Proof.
  set (d := fun n => exp (- (c / INR n)) * (1 + c / INR n + a / INR n ^ 2) - 1).
  assert (H : is_lim_seq (fun n => INR n ^ 2 * d n) (a - c ^ 2 / 2)).
  { apply (is_lim_seq_ext_loc (fun n => exp (- (c / INR n)) * (a - INR n ^ 2 * (exp (c / INR n) - 1 - c / INR n)))).
    - exists 1%nat. intros n Hn. assert (I : 0 < INR n) by (apply lt_0_INR; lia). unfold d. assert (M : exp (- (c / INR n)) * exp (c / INR n) = 1) by (rewrite <- exp_plus, Rplus_opp_l; apply exp_0).
      set (u := exp (- (c / INR n))) in *. set (v := exp (c / INR n)) in *. transitivity (INR n ^ 2 * (u * (1 + c / INR n + a / INR n ^ 2) - u * v)); [field; lra|rewrite M; reflexivity].
    - replace (Finite (a - c ^ 2 / 2)) with (Rbar_mult 1 (a - c ^ 2 / 2)) by (simpl; f_equal; ring). apply is_lim_seq_mult'.
      + replace 1 with (exp 0) by apply exp_0. apply (is_lim_seq_continuous exp (fun n => - (c / INR n)) 0); [apply derivable_continuous_pt, derivable_pt_exp|].
        apply (is_lim_seq_ext (fun n => (- c) / INR n)); [intro n; unfold Rdiv; ring|apply lim_div].
      + apply is_lim_seq_minus'; [apply is_lim_seq_const|apply exp_second]. }
  apply pow_rate in H. apply (is_lim_seq_ext_loc (fun n => exp c * (INR n * ((1 + d n) ^ n - 1)))).
  - exists 1%nat. intros n Hn. assert (I : 0 < INR n) by (apply lt_0_INR; lia). unfold d.
    replace (1 + (exp (- (c / INR n)) * (1 + c / INR n + a / INR n ^ 2) - 1)) with (exp (- (c / INR n)) * (1 + c / INR n + a / INR n ^ 2)) by ring. rewrite Rpow_mult_distr.
    assert (E : exp (- (c / INR n)) ^ n = exp (- c)). { rewrite <- Rpower_pow by apply exp_pos. unfold Rpower. rewrite ln_exp. f_equal. field. lra. }
    rewrite E. assert (M : exp c * exp (- c) = 1) by (rewrite <- exp_plus, Rplus_opp_r; apply exp_0). set (w := (1 + c / INR n + a / INR n ^ 2) ^ n).
    transitivity (INR n * (exp c * exp (- c) * w - exp c)); [ring|]. rewrite M. ring.
  - replace (Finite (exp c * (a - c ^ 2 / 2))) with (Rbar_mult (exp c) (a - c ^ 2 / 2)) by reflexivity. apply is_lim_seq_scal_l. exact H.
Qed.
(** n (u_n - l) -> k gives u_n -> l *)
Lemma rate_lim (u : nat -> R) (l k : R) : is_lim_seq (fun n => INR n * (u n - l)) k -> is_lim_seq u l.
Proof.
  intro H. apply (is_lim_seq_ext_loc (fun n => l + (1 / INR n) * (INR n * (u n - l)))).
  - exists 1%nat. intros n Hn. assert (I : 0 < INR n) by (apply lt_0_INR; lia). field. lra.
  - replace (Finite l) with (Finite (l + 0 * k)) by (f_equal; ring). apply is_lim_seq_plus'; [apply is_lim_seq_const|]. apply is_lim_seq_mult'; [apply lim_div|exact H].
Qed.

(** ** Geometric Brownian motion *)
Section Moments.
Variables (x0 t0 tn : R) (m : nat) (par : bool) (sd : option Z).
Hypothesis HT : t0 < tn.
Let T := tn - t0.
Let cfg (n : nat) : config := Config x0 t0 tn n EulerMaruyama m par sd.
Lemma cfg_dt n : dt (cfg n) = T / INR n.
Proof. reflexivity. Qed.
Lemma sqrt_dt n : (0 < n)%nat -> sqrt (T / INR n) * sqrt (T / INR n) = T / INR n.
Proof. intro H. apply sqrt_sqrt. unfold T. left. apply Rdiv_lt_0_compat; [lra|apply lt_0_INR; exact H]. Qed.
Lemma expected_run p n (g : nat -> R -> R -> R) (G : R -> list R -> R) e :
  (forall l, length l = n -> end_value p (cfg n) l = Some (run g 0 x0 l)) -> expect n (fun l => G (run g 0 x0 l) l) e -> expected p (cfg n) G e.
Proof. intros A B. exists (run g 0 x0). split; [exact A|exact B]. Qed.
Lemma gbm_end mu sigma n : 0 <= sigma -> forall l, length l = n -> end_value (gbm (fun _ => mu) (fun _ => sigma)) (cfg n) l =
  Some (run (fun _ y z => y + mu * y * (T / INR n) + sigma * y * (sqrt (T / INR n) * z)) 0 x0 l).
Proof.
  intros H l Hl. rewrite (affine_end _ (cfg n) _ _ _ _ (gbm_affine (fun _ => mu) (fun _ => sigma) (fun _ => H)) eq_refl l Hl). f_equal. cbv beta. rewrite cfg_dt. simpl x_0.
  generalize x0. generalize 0%nat. clear Hl. induction l as [|z l IH]; intros t x; [reflexivity|]. cbn [run]. rewrite IH. rewrite !Rplus_0_l. reflexivity.
Qed.
Lemma gbm_expected mu sigma n (G : R -> R) (V : nat -> R -> R) : 0 <= sigma -> (forall x, V 0%nat x = G x) ->
  (forall k x, std_E (fun z => V k (x + mu * x * (T / INR n) + sigma * x * (sqrt (T / INR n) * z))) (V (S k) x)) ->
  expected (gbm (fun _ => mu) (fun _ => sigma)) (cfg n) (fun x _ => G x) (V n x0).
Proof.
  intros H V0 VS. apply (expected_run _ _ _ _ _ (gbm_end mu sigma n H)).
  refine (expect_ext _ _ _ _ _ (expect_run (fun _ y z => y + mu * y * (T / INR n) + sigma * y * (sqrt (T / INR n) * z)) (fun k _ x => V k x) _ n 0 x0)); [intros l _; apply V0|].
  intros k t x. apply VS.
Qed.
(** Mean and second moment of the simulated end, their limits (those of the exact
    solution), and the first-order error of both. *)
Theorem euler_gbm_moments : forall mu sigma, 0 <= sigma ->
  let M n := x0 * (1 + mu * T / INR n) ^ n in let Q n := x0 ^ 2 * ((1 + mu * T / INR n) ^ 2 + sigma ^ 2 * T / INR n) ^ n in
  (forall n, (0 < n)%nat -> expected (gbm (fun _ => mu) (fun _ => sigma)) (cfg n) (fun x _ => x) (M n) /\
     expected (gbm (fun _ => mu) (fun _ => sigma)) (cfg n) (fun x _ => x ^ 2) (Q n)) /\
  is_lim_seq M (x0 * exp (mu * T)) /\ is_lim_seq Q (x0 ^ 2 * exp ((2 * mu + sigma ^ 2) * T)) /\
  is_lim_seq (fun n => INR n * (M n - x0 * exp (mu * T))) (- (x0 * exp (mu * T) * (mu * T) ^ 2 / 2)) /\
  is_lim_seq (fun n => INR n * (Q n - x0 ^ 2 * exp ((2 * mu + sigma ^ 2) * T))) (x0 ^ 2 * exp ((2 * mu + sigma ^ 2) * T) * (mu ^ 2 - (2 * mu + sigma ^ 2) ^ 2 / 2) * T ^ 2).
Proof.
  intros mu sigma Hs M Q.
  assert (R1 : is_lim_seq (fun n => INR n * (M n - x0 * exp (mu * T))) (- (x0 * exp (mu * T) * (mu * T) ^ 2 / 2))).
  { apply (is_lim_seq_ext (fun n => x0 * (INR n * ((1 + mu * T / INR n + 0 / INR n ^ 2) ^ n - exp (mu * T))))).
    - intro n. unfold M. replace (0 / INR n ^ 2) with 0 by (unfold Rdiv; ring). rewrite Rplus_0_r. ring.
    - replace (Finite (- (x0 * exp (mu * T) * (mu * T) ^ 2 / 2))) with (Rbar_mult x0 (exp (mu * T) * (0 - (mu * T) ^ 2 / 2))) by (simpl; f_equal; field). apply is_lim_seq_scal_l, growth_rate. }
  assert (R2 : is_lim_seq (fun n => INR n * (Q n - x0 ^ 2 * exp ((2 * mu + sigma ^ 2) * T))) (x0 ^ 2 * exp ((2 * mu + sigma ^ 2) * T) * (mu ^ 2 - (2 * mu + sigma ^ 2) ^ 2 / 2) * T ^ 2)).
  { apply (is_lim_seq_ext_loc (fun n => x0 ^ 2 * (INR n * ((1 + (2 * mu + sigma ^ 2) * T / INR n + (mu ^ 2 * T ^ 2) / INR n ^ 2) ^ n - exp ((2 * mu + sigma ^ 2) * T))))).
    - exists 1%nat. intros n Hn. assert (I : 0 < INR n) by (apply lt_0_INR; lia). unfold Q. replace ((1 + mu * T / INR n) ^ 2 + sigma ^ 2 * T / INR n) with (1 + (2 * mu + sigma ^ 2) * T / INR n + mu ^ 2 * T ^ 2 / INR n ^ 2) by (field; lra). ring.
    - match goal with |- is_lim_seq _ (Finite ?v) => replace (Finite v) with (Rbar_mult (x0 ^ 2) (exp ((2 * mu + sigma ^ 2) * T) * (mu ^ 2 * T ^ 2 - ((2 * mu + sigma ^ 2) * T) ^ 2 / 2))) by (simpl; f_equal; field) end. apply is_lim_seq_scal_l, growth_rate. }
  split; [|split; [apply (rate_lim _ _ _ R1)|split; [apply (rate_lim _ _ _ R2)|split; assumption]]].
  intros n Hn. pose proof (sqrt_dt n Hn) as SQ. set (h := T / INR n) in *.
  assert (EM : M n = x0 * (1 + mu * h) ^ n) by (unfold M, h; replace (mu * (T / INR n)) with (mu * T / INR n) by (unfold Rdiv; ring); reflexivity).
  assert (EQ : Q n = x0 ^ 2 * ((1 + mu * h) ^ 2 + sigma ^ 2 * h) ^ n) by (unfold Q, h; replace (mu * (T / INR n)) with (mu * T / INR n) by (unfold Rdiv; ring); replace (sigma ^ 2 * (T / INR n)) with (sigma ^ 2 * T / INR n) by (unfold Rdiv; ring); reflexivity).
  rewrite EM, EQ. split.
  - apply (gbm_expected mu sigma n (fun x => x) (fun k x => x * (1 + mu * h) ^ k) Hs); [intro x; simpl; ring|]. intros k x. fold h. simpl pow.
    replace (x * ((1 + mu * h) * (1 + mu * h) ^ k)) with ((x + mu * x * h) * (1 + mu * h) ^ k + 0) by ring. apply (std_quadratic _ (sigma * x * sqrt h * (1 + mu * h) ^ k) 0). intro z. ring.
  - apply (gbm_expected mu sigma n (fun x => x ^ 2) (fun k x => x ^ 2 * ((1 + mu * h) ^ 2 + sigma ^ 2 * h) ^ k) Hs); [intro x; simpl; ring|]. intros k x. fold h.
    set (w := (1 + mu * h) ^ 2 + sigma ^ 2 * h). replace (w ^ S k) with (w * w ^ k) by reflexivity.
    replace (x ^ 2 * (w * w ^ k)) with ((x + mu * x * h) ^ 2 * w ^ k + (sigma * x) ^ 2 * h * w ^ k) by (unfold w; ring).
    apply (std_quadratic _ (2 * (x + mu * x * h) * (sigma * x * sqrt h) * w ^ k)). intro z. replace ((sigma * x) ^ 2 * h * w ^ k * z ^ 2) with ((sigma * x) ^ 2 * (sqrt h * sqrt h) * w ^ k * z ^ 2) by (rewrite SQ; reflexivity). ring.
Qed.

(** The discounted simulated forward is too low for every number of steps (when the
    per-step growth factor is positive), with error of first order. *)
Theorem discounted_forward_bias_refuted : forall r sigma n, 0 <= sigma -> (0 < n)%nat -> r <> 0 -> 0 < x0 -> 0 < 1 + r * T / INR n ->
  exists e, expected (gbm (fun _ => r) (fun _ => sigma)) (cfg n) (fun x _ => exp (- r * T) * x) e /\ e < x0.
Proof.
  intros r sigma n Hs Hn Hr Hx Hp. destruct (euler_gbm_moments r sigma Hs) as [A _]. destruct (A n Hn) as [(X & B & C) _]. exists (exp (- r * T) * (x0 * (1 + r * T / INR n) ^ n)). split.
  - exists X. split; [exact B|]. pose proof (expect_lin _ _ _ (exp (- r * T)) 0 _ _ C C) as D. rewrite Rmult_0_l, Rplus_0_r in D. refine (expect_ext _ _ _ _ _ D). intros l _. ring.
  - assert (I : 0 < INR n) by (apply lt_0_INR; exact Hn). assert (TP : 0 < T) by (unfold T; lra).
    assert (K : (1 + r * T / INR n) ^ n < exp (r * T)).
    { rewrite <- Rpower_pow by exact Hp. unfold Rpower. apply exp_increasing. assert (NZ : r * T / INR n <> 0). { unfold Rdiv. apply Rmult_integral_contrapositive_currified; [apply Rmult_integral_contrapositive_currified; lra|apply Rinv_neq_0_compat; lra]. }
      assert (LN : ln (1 + r * T / INR n) < r * T / INR n) by (rewrite <- (ln_exp (r * T / INR n)) at 2; apply ln_increasing; [exact Hp|apply exp_ineq1; exact NZ]).
      apply (Rmult_lt_compat_l (INR n)) in LN; [|exact I]. replace (INR n * (r * T / INR n)) with (r * T) in LN by (field; lra). exact LN. }
    assert (E : exp (- r * T) * exp (r * T) = 1) by (rewrite <- exp_plus; replace (- r * T + r * T) with 0 by ring; apply exp_0).
    apply Rlt_le_trans with (exp (- r * T) * (x0 * exp (r * T))); [|right; transitivity (x0 * (exp (- r * T) * exp (r * T))); [ring|rewrite E; ring]].
    apply Rmult_lt_compat_l; [apply exp_pos|]. apply Rmult_lt_compat_l; assumption.
Qed.

(** The exact solution driven by the same noise. *)
Definition gbm_exact (mu sigma : R) (n : nat) (l : list R) : R := x0 * exp ((mu - sigma ^ 2 / 2) * T + sigma * (sqrt (T / INR n) * rsum l)).
(** Mean square distance between the simulated and the exact end: in closed form, and
    exactly of order 1/n. *)
Theorem euler_gbm_strong_error : forall mu sigma, 0 <= sigma ->
  let err n := x0 ^ 2 * (((1 + mu * T / INR n) ^ 2 + sigma ^ 2 * T / INR n) ^ n - 2 * (exp (mu * T / INR n) * (1 + (mu + sigma ^ 2) * T / INR n)) ^ n + exp ((2 * mu + sigma ^ 2) * T)) in
  (forall n, (0 < n)%nat -> expected (gbm (fun _ => mu) (fun _ => sigma)) (cfg n) (fun x l => (x - gbm_exact mu sigma n l) ^ 2) (err n)) /\
  is_lim_seq err 0 /\ is_lim_seq (fun n => INR n * err n) (x0 ^ 2 * exp ((2 * mu + sigma ^ 2) * T) * (sigma ^ 4 / 2) * T ^ 2).
Proof.
  intros mu sigma Hs err. set (L := 2 * mu + sigma ^ 2) in *.
  assert (RT : is_lim_seq (fun n => INR n * err n) (x0 ^ 2 * exp (L * T) * (sigma ^ 4 / 2) * T ^ 2)).
  { apply (is_lim_seq_ext_loc (fun n => x0 ^ 2 * (INR n * ((1 + L * T / INR n + (mu ^ 2 * T ^ 2) / INR n ^ 2) ^ n - exp (L * T))) - x0 ^ 2 * 2 * exp (mu * T) * (INR n * ((1 + (mu + sigma ^ 2) * T / INR n + 0 / INR n ^ 2) ^ n - exp ((mu + sigma ^ 2) * T))))).
    - exists 1%nat. intros n Hn. assert (I : 0 < INR n) by (apply lt_0_INR; lia). unfold err. replace (0 / INR n ^ 2) with 0 by (unfold Rdiv; ring). rewrite Rplus_0_r, Rpow_mult_distr.
      replace ((1 + mu * T / INR n) ^ 2 + sigma ^ 2 * T / INR n) with (1 + L * T / INR n + mu ^ 2 * T ^ 2 / INR n ^ 2) by (unfold L; field; lra).
      replace (exp (mu * T / INR n) ^ n) with (exp (mu * T)) by (rewrite <- Rpower_pow by apply exp_pos; unfold Rpower; rewrite ln_exp; f_equal; field; lra).
      replace (L * T) with (mu * T + (mu + sigma ^ 2) * T) at 2 4 by (unfold L; ring). rewrite exp_plus. ring.
    - replace (Finite (x0 ^ 2 * exp (L * T) * (sigma ^ 4 / 2) * T ^ 2)) with (Finite (x0 ^ 2 * (exp (L * T) * (mu ^ 2 * T ^ 2 - (L * T) ^ 2 / 2)) - x0 ^ 2 * 2 * exp (mu * T) * (exp ((mu + sigma ^ 2) * T) * (0 - ((mu + sigma ^ 2) * T) ^ 2 / 2)))).
      + apply is_lim_seq_minus'; (match goal with |- is_lim_seq _ (Finite (?a * ?b)) => change (Finite (a * b)) with (Rbar_mult a b) end; apply is_lim_seq_scal_l, growth_rate).
      + f_equal. replace (L * T) with (mu * T + (mu + sigma ^ 2) * T) by (unfold L; ring). rewrite exp_plus. field. }
  split; [|split; [|exact RT]].
  2: { apply (rate_lim _ 0 (x0 ^ 2 * exp (L * T) * (sigma ^ 4 / 2) * T ^ 2)). refine (is_lim_seq_ext _ _ _ _ RT). intro n. rewrite Rminus_0_r. reflexivity. }
  intros n Hn. pose proof (sqrt_dt n Hn) as SQ. assert (I : 0 < INR n) by (apply lt_0_INR; exact Hn). set (h := T / INR n) in *.
  apply (expected_run _ _ _ _ _ (gbm_end mu sigma n Hs)). fold h.
  set (g1 := fun (_ : nat) y z => y + mu * y * h + sigma * y * (sqrt h * z)).
  set (g2 := fun (t : nat) (s : R * R) z => (g1 t (fst s) z, snd s * exp ((mu - sigma ^ 2 / 2) * h + sigma * (sqrt h * z)))).
  assert (R2 : forall l t x y, run g2 t (x, y) l = (run g1 t x l, y * exp ((mu - sigma ^ 2 / 2) * (h * INR (length l)) + sigma * (sqrt h * rsum l)))).
  { induction l as [|z l IH]; intros t x y.
    - simpl. f_equal. rewrite !Rmult_0_r, Rplus_0_l, exp_0. ring.
    - cbn [run]. unfold g2 at 2. cbn [fst snd]. rewrite IH. f_equal. rewrite Rmult_assoc, <- exp_plus. do 2 f_equal. cbn [length]. rewrite S_INR. simpl rsum. ring. }
  set (a := (1 + mu * h) ^ 2 + sigma ^ 2 * h). set (b := exp (mu * h) * (1 + (mu + sigma ^ 2) * h)). set (c := exp (L * h)).
  set (V := fun (k : nat) (_ : nat) (s : R * R) => a ^ k * fst s ^ 2 - 2 * b ^ k * (fst s * snd s) + c ^ k * snd s ^ 2).
  assert (STEP : forall k t s, std_E (fun z => V k (S t) (g2 t s z)) (V (S k) t s)).
  { intros k t [x y]. unfold V, g2, g1. cbn [fst snd]. set (q := (mu - sigma ^ 2 / 2) * h). set (s := sigma * sqrt h).
    assert (S2 : s ^ 2 = sigma ^ 2 * h) by (unfold s; transitivity (sigma ^ 2 * (sqrt h * sqrt h)); [ring|rewrite SQ; reflexivity]).
    assert (A1 : std_E (fun z => (x + mu * x * h + sigma * x * (sqrt h * z)) ^ 2) (x ^ 2 * a)).
    { replace (x ^ 2 * a) with ((x + mu * x * h) ^ 2 + (sigma * x) ^ 2 * h) by (unfold a; ring). apply (std_quadratic _ (2 * (x + mu * x * h) * (sigma * x * sqrt h))). intro z. replace ((sigma * x) ^ 2 * h * z ^ 2) with ((sigma * x) ^ 2 * (sqrt h * sqrt h) * z ^ 2) by (rewrite SQ; reflexivity). ring. }
    assert (A2 : std_E (fun z => ((x + mu * x * h) + (sigma * x * sqrt h) * z) * exp (s * z)) (exp (s ^ 2 / 2) * ((x + mu * x * h) + (sigma * x * sqrt h) * s))) by apply std_exp_affine.
    assert (A3 : std_E (fun z => (1 + 0 * z) * exp ((2 * s) * z)) (exp ((2 * s) ^ 2 / 2) * (1 + 0 * (2 * s)))) by apply std_exp_affine.
    pose proof (std_lin _ _ (a ^ k) (- 2 * b ^ k * y * exp q) _ _ A1 A2) as B1. pose proof (std_lin _ _ 1 (c ^ k * y ^ 2 * exp (2 * q)) _ _ B1 A3) as B2.
    assert (EV : 1 * (a ^ k * (x ^ 2 * a) + - 2 * b ^ k * y * exp q * (exp (s ^ 2 / 2) * (x + mu * x * h + sigma * x * sqrt h * s))) + c ^ k * y ^ 2 * exp (2 * q) * (exp ((2 * s) ^ 2 / 2) * (1 + 0 * (2 * s))) = a ^ S k * x ^ 2 - 2 * b ^ S k * (x * y) + c ^ S k * y ^ 2).
    { assert (E1 : exp q * exp (s ^ 2 / 2) = exp (mu * h)) by (rewrite <- exp_plus; f_equal; rewrite S2; unfold q; field).
      assert (E2 : exp (2 * q) * exp ((2 * s) ^ 2 / 2) = c) by (rewrite <- exp_plus; unfold c; f_equal; replace ((2 * s) ^ 2 / 2) with (2 * s ^ 2) by field; rewrite S2; unfold q, L; field).
      assert (E3 : sigma * x * sqrt h * s = sigma ^ 2 * h * x) by (unfold s; transitivity (sigma ^ 2 * (sqrt h * sqrt h) * x); [ring|rewrite SQ; reflexivity]). rewrite E3.
      transitivity (a ^ k * a * x ^ 2 - 2 * b ^ k * ((exp q * exp (s ^ 2 / 2)) * (1 + (mu + sigma ^ 2) * h)) * (x * y) + c ^ k * (exp (2 * q) * exp ((2 * s) ^ 2 / 2)) * y ^ 2); [ring|]. rewrite E1, E2. fold b. simpl pow. ring. }
    rewrite EV in B2. refine (std_ext _ _ _ _ B2). intro z. rewrite !exp_plus.
    replace (exp (2 * s * z)) with (exp (s * z) * exp (s * z)) by (rewrite <- exp_plus; f_equal; ring). replace (exp (2 * q)) with (exp q * exp q) by (rewrite <- exp_plus; f_equal; ring). replace (exp (sigma * (sqrt h * z))) with (exp (s * z)) by (f_equal; unfold s; ring). ring. }
  pose proof (expect_run g2 V STEP n 0 (x0, x0)) as K.
  assert (EE : V n 0%nat (x0, x0) = err n).
  { unfold V, err, a, b, c, h. cbn [fst snd]. replace (exp (L * (T / INR n)) ^ n) with (exp (L * T)) by (rewrite <- Rpower_pow by apply exp_pos; unfold Rpower; rewrite ln_exp; f_equal; field; lra).
    replace (mu * (T / INR n)) with (mu * T / INR n) by (unfold Rdiv; ring). replace (sigma ^ 2 * (T / INR n)) with (sigma ^ 2 * T / INR n) by (unfold Rdiv; ring). replace ((mu + sigma ^ 2) * (T / INR n)) with ((mu + sigma ^ 2) * T / INR n) by (unfold Rdiv; ring). ring. }
  rewrite EE in K. refine (expect_ext _ _ _ _ _ K). intros l Hl. rewrite R2, Hl. unfold V, gbm_exact. cbn [fst snd]. fold h. replace (h * INR n) with T by (unfold h; field; lra). simpl. ring.
Qed.
(** ** Ornstein-Uhlenbeck *)
Lemma ou_end mu sigma theta n : 0 <= sigma -> forall l, length l = n -> end_value (ou (fun _ => mu) (fun _ => sigma) (fun _ => theta)) (cfg n) l =
  Some (run (fun _ y z => mu + (1 - theta * (T / INR n)) * (y - mu) + sigma * sqrt (T / INR n) * z) 0 x0 l).
Proof.
  intros H l Hl. rewrite (affine_end _ (cfg n) _ _ _ _ (ou_affine (fun _ => mu) (fun _ => sigma) (fun _ => theta) (fun _ => H)) eq_refl l Hl). f_equal. cbv beta. rewrite cfg_dt. simpl x_0.
  generalize x0. generalize 0%nat. clear Hl. induction l as [|z l IH]; intros t x; [reflexivity|]. cbn [run]. rewrite IH. f_equal. ring.
Qed.
Lemma geo_sum q k : (1 - q) * psum (fun j => q ^ j) k = 1 - q ^ k.
Proof. induction k as [|k IH]; [unfold psum; simpl; ring|]. rewrite psum_S. rewrite Rmult_plus_distr_l, IH. simpl. ring. Qed.
(** Mean and variance of the simulated end, and their limits: those of the exact
    Ornstein-Uhlenbeck process. *)
Theorem euler_ou_moments : forall mu sigma theta, 0 <= sigma ->
  let M n := mu + (x0 - mu) * (1 - theta * (T / INR n)) ^ n in let W n := sigma ^ 2 * (T / INR n) * psum (fun j => ((1 - theta * (T / INR n)) ^ 2) ^ j) n in
  (forall n, (0 < n)%nat -> expected (ou (fun _ => mu) (fun _ => sigma) (fun _ => theta)) (cfg n) (fun x _ => x) (M n) /\
     expected (ou (fun _ => mu) (fun _ => sigma) (fun _ => theta)) (cfg n) (fun x _ => (x - M n) ^ 2) (W n)) /\
  is_lim_seq M (mu + (x0 - mu) * exp (- (theta * T))) /\ (theta <> 0 -> is_lim_seq W (sigma ^ 2 / (2 * theta) * (1 - exp (- (2 * theta * T))))).
Proof.
  intros mu sigma theta Hs M W.
  assert (G : is_lim_seq (fun n => (1 - theta * (T / INR n)) ^ n) (exp (- (theta * T)))).
  { apply (rate_lim _ _ (exp (- (theta * T)) * (0 - (- (theta * T)) ^ 2 / 2))). refine (is_lim_seq_ext _ _ _ _ (growth_rate (- (theta * T)) 0)). intro n. replace (1 + - (theta * T) / INR n + 0 / INR n ^ 2) with (1 - theta * (T / INR n)) by (unfold Rdiv; ring). reflexivity. }
  split; [|split].
  - intros n Hn. pose proof (sqrt_dt n Hn) as SQ. set (h := T / INR n) in *. set (q := 1 - theta * h) in *. set (g := fun (_ : nat) y z => mu + q * (y - mu) + sigma * sqrt h * z). split.
    + apply (expected_run _ _ _ _ _ (ou_end mu sigma theta n Hs)). fold h q g.
      refine (expect_ext _ _ _ _ _ (expect_run g (fun k _ x => mu + (x - mu) * q ^ k) _ n 0 x0)); [intros l _; simpl; ring|].
      intros k t x. replace (mu + (x - mu) * q ^ S k) with (mu + (x - mu) * q ^ S k + 0) by ring. apply (std_quadratic _ (sigma * sqrt h * q ^ k) 0). intro z. unfold g. simpl. ring.
    + apply (expected_run _ _ _ _ _ (ou_end mu sigma theta n Hs)). fold h q g.
      pose proof (expect_run g (fun k _ x => (mu + (x - mu) * q ^ k - M n) ^ 2 + sigma ^ 2 * h * psum (fun j => (q ^ 2) ^ j) k)) as K.
      assert (STEP : forall k (t : nat) x, std_E (fun z => (mu + (g t x z - mu) * q ^ k - M n) ^ 2 + sigma ^ 2 * h * psum (fun j => (q ^ 2) ^ j) k) ((mu + (x - mu) * q ^ S k - M n) ^ 2 + sigma ^ 2 * h * psum (fun j => (q ^ 2) ^ j) (S k))).
      { intros k t x. rewrite psum_S. rewrite <- pow_mult. replace (q ^ (2 * k)) with (q ^ k * q ^ k) by (rewrite <- pow_add; f_equal; lia).
        replace ((mu + (x - mu) * q ^ S k - M n) ^ 2 + sigma ^ 2 * h * (psum (fun j => (q ^ 2) ^ j) k + q ^ k * q ^ k)) with (((mu + (x - mu) * q ^ S k - M n) ^ 2 + sigma ^ 2 * h * psum (fun j => (q ^ 2) ^ j) k) + sigma ^ 2 * h * (q ^ k * q ^ k)) by ring.
        apply (std_quadratic _ (2 * (mu + (x - mu) * q ^ S k - M n) * (sigma * sqrt h * q ^ k))). intro z. unfold g.
        replace (sigma ^ 2 * h * (q ^ k * q ^ k) * z ^ 2) with (sigma ^ 2 * (sqrt h * sqrt h) * (q ^ k * q ^ k) * z ^ 2) by (rewrite SQ; reflexivity). simpl pow. ring. }
      specialize (K STEP n 0%nat x0). cbv beta in K. replace ((mu + (x0 - mu) * q ^ n - M n) ^ 2 + sigma ^ 2 * h * psum (fun j => (q ^ 2) ^ j) n) with (W n) in K.
      * refine (expect_ext _ _ _ _ _ K). intros l _. unfold psum. simpl. ring.
      * unfold W, M. fold h q. ring.
  - unfold M. apply is_lim_seq_plus'; [apply is_lim_seq_const|]. change (Finite ((x0 - mu) * exp (- (theta * T)))) with (Rbar_mult (x0 - mu) (exp (- (theta * T)))). apply is_lim_seq_scal_l. exact G.
  - intro NZ. apply (is_lim_seq_ext_loc (fun n => sigma ^ 2 * (1 - ((1 - theta * (T / INR n)) ^ n) * ((1 - theta * (T / INR n)) ^ n)) * / (theta * (2 - theta * T / INR n)))).
    + destruct (lim_eventually (theta * T) 1 Rlt_0_1) as [N HN]. exists N. intros n Hn. destruct (HN n Hn) as [P Q]. assert (I : 0 < INR n) by (apply lt_0_INR; exact P). assert (TP : 0 < T) by (unfold T; lra).
      unfold W. set (h := T / INR n). assert (HP : 0 < h) by (apply Rdiv_lt_0_compat; assumption). set (q := 1 - theta * h).
      pose proof (geo_sum (q ^ 2) n) as S. rewrite <- pow_mult in S. replace (q ^ (2 * n)) with (q ^ n * q ^ n) in S by (rewrite <- pow_add; f_equal; lia). rewrite <- S.
      replace (theta * T / INR n) with (theta * h) by (unfold h, Rdiv; ring). assert (D : 2 - theta * h <> 0). { assert (Rabs (theta * h) < 1) by (unfold h; replace (theta * (T / INR n)) with (theta * T / INR n) by (unfold Rdiv; ring); exact Q). apply Rabs_def2 in H. lra. }
      replace (1 - q ^ 2) with (theta * h * (2 - theta * h)) by (unfold q; ring). field. split; assumption.
    + replace (sigma ^ 2 / (2 * theta) * (1 - exp (- (2 * theta * T)))) with (sigma ^ 2 * (1 - exp (- (theta * T)) * exp (- (theta * T))) * / (theta * (2 - 0))).
      * apply is_lim_seq_mult'; [apply is_lim_seq_mult'; [apply is_lim_seq_const|]; apply is_lim_seq_minus'; [apply is_lim_seq_const|apply is_lim_seq_mult'; exact G]|].
        apply (is_lim_seq_inv _ (theta * (2 - 0))); [|intro E; injection E as E; lra]. apply is_lim_seq_mult'; [apply is_lim_seq_const|]. apply is_lim_seq_minus'; [apply is_lim_seq_const|apply lim_div].
      * rewrite <- exp_plus. replace (- (theta * T) + - (theta * T)) with (- (2 * theta * T)) by ring. field. exact NZ.
Qed.

(** ** Arithmetic Brownian motion: no discretisation error for constant parameters *)
Lemma psum_shift (f : nat -> R) k : psum f (S k) = f 0%nat + psum (fun j => f (S j)) k.
Proof. unfold psum. cbn [seq map]. rewrite <- seq_shift, map_map. reflexivity. Qed.
Lemma psum_ext (f g : nat -> R) k : (forall j, f j = g j) -> psum f k = psum g k.
Proof. intro H. unfold psum. f_equal. apply map_ext. exact H. Qed.
Lemma abm_end mu sigma n : (forall t, 0 <= sigma t) -> forall l, length l = n -> end_value (abm mu sigma) (cfg n) l =
  Some (run (fun j y z => y + mu (time_at (cfg n) j) * (T / INR n) + sigma (time_at (cfg n) j) * (sqrt (T / INR n) * z)) 0 x0 l).
Proof.
  intros H l Hl. rewrite (affine_end _ (cfg n) _ _ _ _ (abm_affine mu sigma H) eq_refl l Hl). f_equal. cbv beta. rewrite cfg_dt. simpl x_0.
  generalize x0. generalize 0%nat. clear Hl. induction l as [|z l IH]; intros t x; [reflexivity|]. cbn [run]. rewrite IH. f_equal. ring.
Qed.
Theorem euler_abm_moments : forall mu sigma n, (forall t, 0 <= sigma t) -> (0 < n)%nat ->
  let h := T / INR n in let M := x0 + h * psum (fun j => mu (t0 + h * INR j)) n in
  expected (abm mu sigma) (cfg n) (fun x _ => x) M /\ expected (abm mu sigma) (cfg n) (fun x _ => (x - M) ^ 2) (h * psum (fun j => sigma (t0 + h * INR j) ^ 2) n).
Proof.
  intros mu sigma n Hs Hn h M. pose proof (sqrt_dt n Hn) as SQ. fold h in SQ.
  set (g := fun j y z => y + mu (time_at (cfg n) j) * h + sigma (time_at (cfg n) j) * (sqrt h * z)).
  assert (TA : forall j, time_at (cfg n) j = t0 + h * INR j) by reflexivity.
  split; apply (expected_run _ _ _ _ _ (abm_end mu sigma n Hs)); fold h g.
  - pose proof (expect_run g (fun k t x => x + h * psum (fun j => mu (time_at (cfg n) (t + j)%nat)) k)) as K.
    assert (STEP : forall k t x, std_E (fun z => g t x z + h * psum (fun j => mu (time_at (cfg n) (S t + j)%nat)) k) (x + h * psum (fun j => mu (time_at (cfg n) (t + j)%nat)) (S k))).
    { intros k t x. rewrite psum_shift, Nat.add_0_r. rewrite (psum_ext (fun j => mu (time_at (cfg n) (t + S j)%nat)) (fun j => mu (time_at (cfg n) (S t + j)%nat))) by (intro j; do 2 f_equal; lia).
      match goal with |- std_E _ ?v => replace v with (v + 0) by ring end. apply (std_quadratic _ (sigma (time_at (cfg n) t) * sqrt h) 0). intro z. unfold g. ring. }
    specialize (K STEP n 0%nat x0). cbv beta in K. refine (expect_ext _ _ _ _ _ K). intros l _. unfold psum. simpl. ring.
  - pose proof (expect_run g (fun k t x => (x + h * psum (fun j => mu (time_at (cfg n) (t + j)%nat)) k - M) ^ 2 + h * psum (fun j => sigma (time_at (cfg n) (t + j)%nat) ^ 2) k)) as K.
    assert (STEP : forall k t x, std_E (fun z => (g t x z + h * psum (fun j => mu (time_at (cfg n) (S t + j)%nat)) k - M) ^ 2 + h * psum (fun j => sigma (time_at (cfg n) (S t + j)%nat) ^ 2) k)
      ((x + h * psum (fun j => mu (time_at (cfg n) (t + j)%nat)) (S k) - M) ^ 2 + h * psum (fun j => sigma (time_at (cfg n) (t + j)%nat) ^ 2) (S k))).
    { intros k t x. rewrite !psum_shift, Nat.add_0_r. rewrite (psum_ext (fun j => mu (time_at (cfg n) (t + S j)%nat)) (fun j => mu (time_at (cfg n) (S t + j)%nat))) by (intro j; do 2 f_equal; lia).
      rewrite (psum_ext (fun j => sigma (time_at (cfg n) (t + S j)%nat) ^ 2) (fun j => sigma (time_at (cfg n) (S t + j)%nat) ^ 2)) by (intro j; do 3 f_equal; lia).
      set (A := psum (fun j => mu (time_at (cfg n) (S t + j)%nat)) k). set (B := psum (fun j => sigma (time_at (cfg n) (S t + j)%nat) ^ 2) k). set (u := mu (time_at (cfg n) t)). set (v := sigma (time_at (cfg n) t)).
      replace ((x + h * (u + A) - M) ^ 2 + h * (v ^ 2 + B)) with (((x + h * (u + A) - M) ^ 2 + h * B) + v ^ 2 * h) by ring.
      apply (std_quadratic _ (2 * (x + h * (u + A) - M) * (v * sqrt h))). intro z. unfold g. fold u v. replace (v ^ 2 * h * z ^ 2) with (v ^ 2 * (sqrt h * sqrt h) * z ^ 2) by (rewrite SQ; reflexivity). ring. }
    specialize (K STEP n 0%nat x0). cbv beta in K.
    assert (EM : (x0 + h * psum (fun j => mu (time_at (cfg n) (0 + j)%nat)) n - M) ^ 2 + h * psum (fun j => sigma (time_at (cfg n) (0 + j)%nat) ^ 2) n = h * psum (fun j => sigma (t0 + h * INR j) ^ 2) n).
    { unfold M. simpl Nat.add. rewrite (psum_ext (fun j => mu (time_at (cfg n) j)) (fun j => mu (t0 + h * INR j))) by (intro j; rewrite TA; reflexivity). rewrite (psum_ext (fun j => sigma (time_at (cfg n) j) ^ 2) (fun j => sigma (t0 + h * INR j) ^ 2)) by (intro j; rewrite TA; reflexivity). ring. }
    rewrite EM in K. refine (expect_ext _ _ _ _ _ K). intros l _. unfold psum. simpl. ring.
Qed.

(** ** The other two schemes: the variance of simulated Brownian motion is the number
    of steps, whatever the horizon *)
Theorem milstein_strang_variance_refuted : forall sch n, sch <> EulerMaruyama ->
  expected brownian_motion (Config x0 t0 tn n sch m par sd) (fun x _ => x) x0 /\ expected brownian_motion (Config x0 t0 tn n sch m par sd) (fun x _ => (x - x0) ^ 2) (INR n).
Proof.
  intros sch n Hsch. set (c := Config x0 t0 tn n sch m par sd).
  assert (E : forall l, length l = n_steps c -> end_value brownian_motion c l = Some (run (fun _ y z => y + z) 0 (x_0 c) l)).
  { apply end_value_run. intros j y z. unfold c. cbn [cfg_scheme]. destruct sch; [congruence| |]; cbn; do 2 f_equal; field. }
  split.
  - exists (run (fun _ y z => y + z) 0 x0). split; [exact E|]. apply (expect_run (fun _ y z => y + z) (fun _ _ x => x)). intros k t x. pose proof (std_quadratic x 1 0 (fun z => x + z) ltac:(intro z; cbv beta; ring)) as Q. rewrite Rplus_0_r in Q. exact Q.
  - exists (run (fun _ y z => y + z) 0 x0). split; [exact E|]. simpl n_steps.
    pose proof (expect_run (fun _ y z => y + z) (fun k _ x => (x - x0) ^ 2 + INR k)) as K.
    assert (STEP : forall k (t : nat) x, std_E (fun z => (x + z - x0) ^ 2 + INR k) ((x - x0) ^ 2 + INR (S k))).
    { intros k t x. rewrite S_INR. replace ((x - x0) ^ 2 + (INR k + 1)) with ((x - x0) ^ 2 + INR k + 1) by ring. apply (std_quadratic _ (2 * (x - x0)) 1). intro z. ring. }
    specialize (K STEP n 0%nat x0). cbv beta in K. replace ((x0 - x0) ^ 2 + INR n) with (INR n) in K by ring. refine (expect_ext _ _ _ _ _ K). intros l _. simpl. ring.
Qed.
End Moments.
Print Assumptions euler_gbm_moments.
Print Assumptions discounted_forward_bias_refuted.
Print Assumptions euler_gbm_strong_error.
Print Assumptions euler_ou_moments.
Print Assumptions euler_abm_moments.
Print Assumptions milstein_strang_variance_refuted.
(** The hypotheses are met by ordinary configurations. *)
Example moments_case : 0 < 1 + 5 / 100 * (1 - 0) / INR 50 /\
  exists e, expected (gbm (fun _ => 5 / 100) (fun _ => 2 / 10)) (Config 100 0 1 50 EulerMaruyama 10 false None) (fun x _ => exp (- (5 / 100) * (1 - 0)) * x) e /\ e < 100.
Proof.
  assert (P : 0 < / INR 50) by (apply Rinv_0_lt_compat, lt_0_INR, Nat.lt_0_succ).
  assert (Q : 0 < 1 + 5 / 100 * (1 - 0) / INR 50) by (unfold Rdiv; revert P; generalize (/ INR 50); intros w P; lra). split; [exact Q|].
  apply (discounted_forward_bias_refuted 100 0 1 10 false None Rlt_0_1 (5 / 100) (2 / 10) 50); [lra|apply Nat.lt_0_succ|lra|lra|exact Q].
Qed.
