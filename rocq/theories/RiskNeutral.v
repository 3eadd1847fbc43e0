(** C89: the closed-form prices are discounted expectations. *)
From Coq Require Import Reals List Lra Lia.
From Coquelicot Require Import Coquelicot.
From Verif Require Import Res InterpModel RList StatModel PayoffModel SpecialFns RGen DistModel DistGauss BsmModel BsmProofs BsmProps BachHestonProps SimMoments GaussExp.
Import ListNotations.
Open Scope R_scope.

(** The underlying at time t as a function of a standard normal draw: lognormal with
    cost of carry b and volatility v; normal around the forward. *)
Definition lognormal_at (s b v t z : R) : R := s * exp ((b - v ^ 2 / 2) * t + v * sqrt t * z).
Definition normal_at (f v t z : R) : R := f + v * sqrt t * z.

Lemma npdf_tilt w z : npdf (z - w) * exp (w ^ 2 / 2) = npdf z * exp (w * z).
Proof. unfold npdf. rewrite !Rmult_assoc, <- !exp_plus. do 2 f_equal. field. Qed.
Lemma lim_ncdf_shift w : is_lim (fun z => ncdf (z - w)) p_infty 1.
Proof.
  apply (is_lim_comp ncdf (fun z => z - w) p_infty 1 p_infty); [apply ncdf_lim_p| |exists 0; discriminate].
  apply (is_lim_minus (fun z => z) (fun _ => w) p_infty p_infty w); [apply is_lim_id|apply is_lim_const|reflexivity].
Qed.
Lemma std_lognormal s b v t : 0 < t -> std_E (lognormal_at s b v t) (s * exp (b * t)).
Proof.
  intros T. pose proof (std_exp_affine (s * exp ((b - v ^ 2 / 2) * t)) 0 (v * sqrt t)) as K.
  replace (s * exp (b * t)) with (exp ((v * sqrt t) ^ 2 / 2) * (s * exp ((b - v ^ 2 / 2) * t) + 0 * (v * sqrt t))).
  - refine (std_ext _ _ _ _ K). intro z. unfold lognormal_at. rewrite exp_plus. ring.
  - rewrite Rmult_0_l, Rplus_0_r. replace (exp ((v * sqrt t) ^ 2 / 2) * (s * exp ((b - v ^ 2 / 2) * t))) with (s * (exp ((v * sqrt t) ^ 2 / 2) * exp ((b - v ^ 2 / 2) * t))) by ring.
    rewrite <- exp_plus. do 2 f_equal. replace ((v * sqrt t) ^ 2) with (v ^ 2 * (sqrt t * sqrt t)) by ring. rewrite sqrt_sqrt by lra. field.
Qed.

Section Bsm.
Context (s k t b v : R) (A : adm s k t v).
Let w := v * sqrt t.
Let c := - d2 s k t b v.
Lemma w_pos : 0 < w.
Proof. destruct A as (_ & _ & T & V). apply Rmult_lt_0_compat; [exact V|apply sqrt_lt_R0, T]. Qed.
Lemma at_strike : lognormal_at s b v t c = k.
Proof.
  pose proof w_pos as W. destruct A as (S & K & T & V). pose proof (sqrt_lt_R0 t T) as Q. unfold lognormal_at, c, d2, d1.
  replace ((b - v ^ 2 / 2) * t + v * sqrt t * - ((ln (s / k) + (b + / 2 * v ^ 2) * t) / (v * sqrt t) - v * sqrt t)) with (- ln (s / k) + v ^ 2 * (sqrt t * sqrt t - t)) by (field; lra).
  rewrite sqrt_sqrt by lra. rewrite Rminus_diag_eq, Rmult_0_r, Rplus_0_r, exp_Ropp, exp_ln by (try reflexivity; apply Rdiv_lt_0_compat; assumption). field. lra.
Qed.
Lemma lognormal_mono x y : x < y -> lognormal_at s b v t x < lognormal_at s b v t y.
Proof. intro H. pose proof w_pos as W. destruct A as (S & _). unfold lognormal_at. apply Rmult_lt_compat_l; [exact S|]. apply exp_increasing. fold w. nra. Qed.
Lemma lognormal_cont z : continuous (lognormal_at s b v t) z.
Proof. apply (ex_derive_continuous (K:=R_AbsRing) (V:=R_NormedModule) (lognormal_at s b v t)). unfold lognormal_at. auto_derive. exact I. Qed.

(** an asset-or-nothing part a and a cash part q, paid above the strike *)
Lemma std_above_strike a q : std_E (fun z => if Rle_dec c z then a * lognormal_at s b v t z + q else 0)
  (a * (s * exp (b * t) * ncdf (d1 s k t b v)) + q * ncdf (d2 s k t b v)).
Proof.
  set (F := fun z => a * (s * exp (b * t)) * ncdf (z - w) + q * ncdf z).
  assert (E : a * (s * exp (b * t) * ncdf (d1 s k t b v)) + q * ncdf (d2 s k t b v) = (a * (s * exp (b * t)) * 1 + q * 1) - F c).
  { unfold F. replace (c - w) with (- d1 s k t b v) by (unfold c, d2; fold w; ring). unfold c. rewrite !ncdf_sym. ring. }
  rewrite E. apply (std_above _ (fun z => a * lognormal_at s b v t z + q) F c).
  - intros z Hz. destruct (Rle_dec c z); [lra|reflexivity].
  - intros z Hz. destruct (Rle_dec c z); [reflexivity|lra].
  - intro z. apply (continuous_plus (fun z => a * lognormal_at s b v t z) (fun _ => q)); [|apply continuous_const]. apply (continuous_mult (fun _ => a) (lognormal_at s b v t)); [apply continuous_const|apply lognormal_cont].
  - intro z. apply (isd_eq _ _ (a * (s * exp (b * t)) * (npdf (z - w) * (1 - 0)) + q * npdf z)).
    + apply (d_add (fun z => a * (s * exp (b * t)) * ncdf (z - w)) (fun z => q * ncdf z)).
      * apply (isd_eq _ _ (0 * ncdf (z - w) + a * (s * exp (b * t)) * (npdf (z - w) * (1 - 0)))); [|ring].
        apply (d_mul (fun _ => a * (s * exp (b * t))) (fun z => ncdf (z - w))); [apply d_const|]. apply (d_ncdf (fun z => z - w)). apply (d_sub (fun z => z) (fun _ => w)); [apply d_id|apply d_const].
      * apply (isd_eq _ _ (0 * ncdf z + q * npdf z)); [|ring]. apply (d_mul (fun _ => q) ncdf); [apply d_const|apply ncdf_derive].
    + pose proof (npdf_tilt w z) as P. assert (X : npdf (z - w) = npdf z * exp (w * z) * exp (- (w ^ 2 / 2))).
      { rewrite <- P, Rmult_assoc, <- exp_plus, Rplus_opp_r, exp_0. ring. }
      rewrite X. unfold lognormal_at. fold w. replace (w ^ 2) with (v ^ 2 * t).
      * replace (exp (b * t)) with (exp ((b - v ^ 2 / 2) * t) * exp (v ^ 2 * t / 2)) by (rewrite <- exp_plus; f_equal; field).
        rewrite exp_plus. assert (Y : exp (v ^ 2 * t / 2) * exp (- (v ^ 2 * t / 2)) = 1) by (rewrite <- exp_plus, Rplus_opp_r; apply exp_0).
        transitivity (npdf z * (a * (s * (exp ((b - v ^ 2 / 2) * t) * exp (w * z))) * (exp (v ^ 2 * t / 2) * exp (- (v ^ 2 * t / 2))) + q)); [ring|]. rewrite Y. ring.
      * unfold w. replace ((v * sqrt t) ^ 2) with (v ^ 2 * (sqrt t * sqrt t)) by ring. rewrite sqrt_sqrt by (destruct A as (_ & _ & T & _); lra). reflexivity.
  - apply is_lim_plus'; match goal with |- is_lim _ _ (Finite (?u * ?x)) => change (Finite (u * x)) with (Rbar_mult u x) end; apply is_lim_scal_l; [apply lim_ncdf_shift|apply ncdf_lim_p].
Qed.
Lemma std_call : std_E (fun z => vanilla_payoff Call k (lognormal_at s b v t z)) (s * exp (b * t) * ncdf (d1 s k t b v) - k * ncdf (d2 s k t b v)).
Proof.
  replace (s * exp (b * t) * ncdf (d1 s k t b v) - k * ncdf (d2 s k t b v)) with (1 * (s * exp (b * t) * ncdf (d1 s k t b v)) + - k * ncdf (d2 s k t b v)) by ring.
  refine (std_ext _ _ _ _ (std_above_strike 1 (- k))). intro z. cbv beta. unfold vanilla_payoff. pose proof at_strike as K. destruct (Rle_dec c z) as [L|L].
  - assert (k <= lognormal_at s b v t z). { rewrite <- K. destruct L as [L|L]; [left; apply lognormal_mono, L|rewrite L; apply Rle_refl]. } rewrite Rmax_left; lra.
  - assert (lognormal_at s b v t z < k) by (rewrite <- K; apply lognormal_mono; lra). rewrite Rmax_right; lra.
Qed.
End Bsm.

(** The price of a European option is the discounted expectation of its payoff when the
    underlying is lognormal; [zeta] is the probability of finishing in the money. *)
Theorem bsm_risk_neutral : forall s k t r b v tf, adm s k t v ->
  std_E (fun z => exp (- r * t) * vanilla_payoff tf k (lognormal_at s b v t z)) (match tf with Call => call_price | Put => put_price end s k t r b v) /\
  std_E (fun z => if Rle_dec k (lognormal_at s b v t z) then 1 else 0) (o_zeta (BsmOpt b s k v r t Call)) /\
  std_E (fun z => if Rle_dec k (lognormal_at s b v t z) then 0 else 1) (o_zeta (BsmOpt b s k v r t Put)).
Proof.
  intros s k t r b v tf A. pose proof A as (S & K & T & V).
  assert (Z : std_E (fun z => if Rle_dec k (lognormal_at s b v t z) then 1 else 0) (ncdf (d2 s k t b v))).
  { pose proof (std_above_strike s k t b v A 0 1) as H. rewrite Rmult_0_l, Rplus_0_l, Rmult_1_l in H. refine (std_ext _ _ _ _ H). intro z. cbv beta.
    pose proof (at_strike s k t b v A) as KK. rewrite Rmult_0_l, Rplus_0_l. destruct (Rle_dec (- d2 s k t b v) z) as [L|L], (Rle_dec k (lognormal_at s b v t z)) as [M|M]; try reflexivity; exfalso.
    - apply M. rewrite <- KK. destruct L as [L|L]; [left; apply (lognormal_mono s k t b v A), L|rewrite L; apply Rle_refl].
    - assert (lognormal_at s b v t z < k) by (rewrite <- KK; apply (lognormal_mono s k t b v A); lra). lra. }
  assert (CE : exp (- r * t) * (s * exp (b * t) * ncdf (d1 s k t b v) - k * ncdf (d2 s k t b v)) = call_price s k t r b v).
  { unfold call_price. replace ((b - r) * t) with (- r * t + b * t) by ring. rewrite exp_plus. ring. }
  assert (C : std_E (fun z => exp (- r * t) * vanilla_payoff Call k (lognormal_at s b v t z)) (call_price s k t r b v)).
  { pose proof (std_lin _ _ (exp (- r * t)) 0 _ _ (std_call s k t b v A) (std_const 0)) as H. rewrite CE, Rmult_0_l, Rplus_0_r in H. refine (std_ext _ _ _ _ H). intro z. ring. }
  destruct (bsm_opt_agrees (BsmOpt b s k v r t Call) V T) as (_ & D2 & _). cbn [o_s o_k o_t o_b o_v] in D2. split; [|split].
  - destruct tf; [exact C|]. pose proof (std_lin _ _ 1 (- exp (- r * t)) _ _ C (std_lognormal s b v t T)) as H.
    pose proof (std_lin _ _ 1 (exp (- r * t) * k) _ _ H (std_const 1)) as H2. destruct (bsm_parity s k t r b v) as [P _].
    replace (put_price s k t r b v) with (1 * (1 * call_price s k t r b v + - exp (- r * t) * (s * exp (b * t))) + exp (- r * t) * k * 1).
    + refine (std_ext _ _ _ _ H2). intro z. cbv beta. unfold vanilla_payoff. set (x := lognormal_at s b v t z). unfold Rmax. destruct (Rle_dec (x - k) 0), (Rle_dec (k - x) 0); try ring.
      * assert (x = k) by lra. subst x. rewrite H0. ring.
      * lra.
    + replace ((b - r) * t) with (- r * t + b * t) in P by ring. rewrite exp_plus in P. lra.
  - unfold o_zeta. cbn [o_tf]. rewrite D2. exact Z.
  - unfold o_zeta. cbn [o_tf]. change (o_d2 (BsmOpt b s k v r t Put)) with (o_d2 (BsmOpt b s k v r t Call)). rewrite D2, ncdf_sym.
    pose proof (std_lin _ _ 1 (-1) _ _ (std_const 1) Z) as H. replace (1 * 1 + -1 * ncdf (d2 s k t b v)) with (1 - ncdf (d2 s k t b v)) in H by ring.
    refine (std_ext _ _ _ _ H). intro z. cbv beta. destruct (Rle_dec k (lognormal_at s b v t z)); ring.
Qed.
Print Assumptions bsm_risk_neutral.
(** for every model of the library's Black-Scholes-Merton family *)
Theorem gbsm_risk_neutral : forall m k t tf, adm (g_s m) k t (g_v m) ->
  std_E (fun z => exp (- g_r m * t) * vanilla_payoff tf k (lognormal_at (g_s m) (g_b m) (g_v m) t z)) (g_price m k t tf).
Proof. intros m k t tf A. pose proof (proj1 (bsm_risk_neutral _ _ _ (g_r m) (g_b m) _ tf A)) as H. unfold g_price, dispatch. destruct tf; exact H. Qed.
Print Assumptions gbsm_risk_neutral.
Example gbsm_risk_neutral_case : std_E (fun z => exp (- (5 / 100) * (1 / 2)) * vanilla_payoff Put 95 (lognormal_at 100 (5 / 100 - 2 / 100) (3 / 10) (1 / 2) z))
  (g_price (Merton73 100 (5 / 100) (2 / 100) (3 / 10)) 95 (1 / 2) Put).
Proof. apply (gbsm_risk_neutral (Merton73 100 (5 / 100) (2 / 100) (3 / 10))). unfold adm; simpl; lra. Qed.

(** ** The discounted price is a martingale: today's price is the expected price later *)
Lemma add_time t h : 0 < t -> 0 < h -> sqrt (1 + (sqrt h / sqrt t) ^ 2) = sqrt (t + h) / sqrt t.
Proof.
  intros T H. pose proof (sqrt_lt_R0 t T) as Q. rewrite <- (sqrt_div (t + h) t) by lra. f_equal. replace ((sqrt h / sqrt t) ^ 2) with (sqrt h * sqrt h / (sqrt t * sqrt t)) by (field; lra). rewrite !sqrt_sqrt by lra. field. lra.
Qed.
Theorem bsm_tower : forall s k t h r b v tf, adm s k t v -> 0 < h ->
  let price := match tf with Call => call_price | Put => put_price end in
  std_E (fun z => exp (- r * h) * price (lognormal_at s b v h z) k t r b v) (price s k (t + h) r b v).
Proof.
  intros s k t h r b v tf A H price. pose proof A as (S & K & T & V). pose proof (sqrt_lt_R0 t T) as QT. pose proof (sqrt_lt_R0 h H) as QH. assert (TH : 0 < t + h) by lra. pose proof (sqrt_lt_R0 _ TH) as QS.
  assert (ST : sqrt t * sqrt t = t) by (apply sqrt_sqrt; lra). assert (SH : sqrt h * sqrt h = h) by (apply sqrt_sqrt; lra). assert (SS : sqrt (t + h) * sqrt (t + h) = t + h) by (apply sqrt_sqrt; lra).
  set (be := sqrt h / sqrt t). set (a2 := (ln (s / k) + (b - v ^ 2 / 2) * (t + h)) / (v * sqrt t)). set (a1 := (ln (s / k) + (b + v ^ 2 / 2) * (t + h)) / (v * sqrt t)).
  assert (LN : forall z, ln (lognormal_at s b v h z / k) = ln (s / k) + ((b - v ^ 2 / 2) * h + v * sqrt h * z)).
  { intro z. unfold lognormal_at. replace (s * exp ((b - v ^ 2 / 2) * h + v * sqrt h * z) / k) with (s / k * exp ((b - v ^ 2 / 2) * h + v * sqrt h * z)) by (field; lra). rewrite ln_mult, ln_exp; [reflexivity|apply Rdiv_lt_0_compat; assumption|apply exp_pos]. }
  assert (D2 : forall z, d2 (lognormal_at s b v h z) k t b v = a2 + be * z).
  { intro z. unfold d2, d1. rewrite LN. unfold a2, be. apply (Rmult_eq_reg_r (v * sqrt t)); [|nra].
    replace ((((ln (s / k) + ((b - v ^ 2 / 2) * h + v * sqrt h * z) + (b + / 2 * v ^ 2) * t) / (v * sqrt t) - v * sqrt t)) * (v * sqrt t)) with (ln (s / k) + ((b - v ^ 2 / 2) * h + v * sqrt h * z) + (b + / 2 * v ^ 2) * t - v ^ 2 * (sqrt t * sqrt t)) by (field; lra).
    rewrite ST. field. lra. }
  assert (D1 : forall z, d1 (lognormal_at s b v h (z + v * sqrt h)) k t b v = a1 + be * z).
  { intro z. unfold d1. rewrite LN. unfold a1, be. apply (Rmult_eq_reg_r (v * sqrt t)); [|nra].
    replace ((ln (s / k) + ((b - v ^ 2 / 2) * h + v * sqrt h * (z + v * sqrt h)) + (b + / 2 * v ^ 2) * t) / (v * sqrt t) * (v * sqrt t)) with (ln (s / k) + ((b - v ^ 2 / 2) * h + v * sqrt h * z + v ^ 2 * (sqrt h * sqrt h)) + (b + / 2 * v ^ 2) * t) by (field; lra).
    rewrite SH. field. lra. }
  assert (C : sqrt (1 + be ^ 2) = sqrt (t + h) / sqrt t) by (apply add_time; assumption).
  assert (F2 : a2 / sqrt (1 + be ^ 2) = d2 s k (t + h) b v).
  { rewrite C. unfold a2, d2, d1. apply (Rmult_eq_reg_r (v * sqrt (t + h))); [|nra].
    replace (((ln (s / k) + (b + / 2 * v ^ 2) * (t + h)) / (v * sqrt (t + h)) - v * sqrt (t + h)) * (v * sqrt (t + h))) with (ln (s / k) + (b + / 2 * v ^ 2) * (t + h) - v ^ 2 * (sqrt (t + h) * sqrt (t + h))) by (field; lra). rewrite SS. field. lra. }
  assert (F1 : a1 / sqrt (1 + be ^ 2) = d1 s k (t + h) b v) by (rewrite C; unfold a1, d1; field; lra).
  assert (CALL : std_E (fun z => exp (- r * h) * call_price (lognormal_at s b v h z) k t r b v) (call_price s k (t + h) r b v)).
  { pose proof (std_ncdf a2 be) as N2. rewrite F2 in N2.
    pose proof (std_tilt (v * sqrt h) (fun z => ncdf (d1 (lognormal_at s b v h z) k t b v)) (ncdf (d1 s k (t + h) b v))) as N1.
    assert (N1' : std_E (fun y => ncdf (d1 (lognormal_at s b v h (y + v * sqrt h)) k t b v)) (ncdf (d1 s k (t + h) b v))).
    { pose proof (std_ncdf a1 be) as X. rewrite F1 in X. refine (std_ext _ _ _ _ X). intro z. cbv beta. rewrite D1. reflexivity. }
    specialize (N1 N1'). cbv beta in N1.
    pose proof (std_lin _ _ (exp (- r * h) * (s * exp ((b - v ^ 2 / 2) * h) * exp ((b - r) * t))) (- (k * exp (- r * (t + h)))) _ _ N1 N2) as L.
    match type of L with std_E _ ?e => replace e with (call_price s k (t + h) r b v) in L end.
    - refine (std_ext _ _ _ _ L). intro z. cbv beta. unfold call_price. rewrite D2. generalize (ncdf (d1 (lognormal_at s b v h z) k t b v)). intro N. unfold lognormal_at. rewrite (exp_plus ((b - v ^ 2 / 2) * h)). replace (- r * (t + h)) with (- r * h + - r * t) by ring. rewrite exp_plus. ring.
    - unfold call_price. replace ((v * sqrt h) ^ 2 / 2) with (v ^ 2 * h / 2) by (rewrite <- SH at 1; field).
      replace ((b - r) * (t + h)) with (- r * h + ((b - v ^ 2 / 2) * h + (v ^ 2 * h / 2 + (b - r) * t))) by field. rewrite !exp_plus. ring. }
  unfold price. destruct tf; [exact CALL|].
  pose proof (std_lin _ _ (- (exp (- r * h) * exp ((b - r) * t))) (k * exp (- r * (t + h))) _ _ (std_lognormal s b v h H) (std_const 1)) as X. pose proof (std_lin _ _ 1 1 _ _ CALL X) as L.
  match type of L with std_E _ ?e => replace e with (put_price s k (t + h) r b v) in L end.
  - refine (std_ext _ _ _ _ L). intro z. cbv beta. destruct (bsm_parity (lognormal_at s b v h z) k t r b v) as [P _]. replace (- r * (t + h)) with (- r * h + - r * t) by ring. rewrite exp_plus.
    replace (put_price (lognormal_at s b v h z) k t r b v) with (call_price (lognormal_at s b v h z) k t r b v - (lognormal_at s b v h z * exp ((b - r) * t) - k * exp (- r * t))) by lra. ring.
  - destruct (bsm_parity s k (t + h) r b v) as [P _]. replace ((b - r) * (t + h)) with (- r * h + (b - r) * t + b * h) in P by ring. rewrite !exp_plus in P. lra.
Qed.
Print Assumptions bsm_tower.

(** ** Bachelier *)
Lemma npdf_ncdf_lim a b x : (x = p_infty \/ x = m_infty) -> is_lim (fun z => - npdf z * ncdf (a + b * z)) x 0.
Proof.
  intro X. assert (L : is_lim (fun z => npdf z) x 0).
  { apply (is_lim_ext (fun z => z ^ 0 * npdf z)); [intro z; simpl; apply Rmult_1_l|]. destruct X as [-> | ->]; [apply tail_p|apply tail_m]. }
  apply (is_lim_le_le_loc (fun z => - npdf z) npdf); [|replace (Finite 0) with (Rbar_opp 0) by (simpl; f_equal; ring); apply is_lim_opp, L|exact L].
  apply filter_forall. intro z. pose proof (npdf_nonneg z). pose proof (ncdf_bound (a + b * z)). nra.
Qed.
Lemma std_z_ncdf a b : std_E (fun z => z * ncdf (a + b * z)) (b * (npdf (a / sqrt (1 + b ^ 2)) / sqrt (1 + b ^ 2))).
Proof.
  assert (K : std_E (fun z => z * ncdf (a + b * z) - b * npdf (a + b * z)) (0 - 0)).
  { unfold std_E. apply (igen_line (fun z => - npdf z * ncdf (a + b * z))); [| |apply npdf_ncdf_lim; auto|apply npdf_ncdf_lim; auto].
    - intro z. apply (isd_eq _ _ ((- (- z * npdf z)) * ncdf (a + b * z) + - npdf z * (npdf (a + b * z) * b))); [|ring].
      apply (d_mul (fun z => - npdf z) (fun z => ncdf (a + b * z))); [apply (d_opp npdf), npdf_derive|]. apply (d_ncdf (fun z => a + b * z)). auto_derive; [exact I|ring].
    - intro z. apply (continuous_mult npdf (fun z => z * ncdf (a + b * z) - b * npdf (a + b * z))); [apply npdf_cont|].
      apply (continuous_minus (fun z => z * ncdf (a + b * z)) (fun z => b * npdf (a + b * z))).
      + apply (continuous_mult (fun z => z) (fun z => ncdf (a + b * z))); [apply continuous_id|apply ncdf_affine_cont].
      + apply (continuous_mult (fun _ => b) (fun z => npdf (a + b * z))); [apply continuous_const|]. apply (continuous_comp (fun z => a + b * z) npdf); [|apply npdf_cont].
        apply (ex_derive_continuous (K:=R_AbsRing) (V:=R_NormedModule) (fun z => a + b * z)). auto_derive. exact I. }
  pose proof (std_lin _ _ 1 b _ _ K (std_npdf a b)) as L. match type of L with std_E _ ?e => replace e with (b * (npdf (a / sqrt (1 + b ^ 2)) / sqrt (1 + b ^ 2))) in L by ring end.
  refine (std_ext _ _ _ _ L). intro z. cbv beta. ring.
Qed.
Theorem bachelier_risk_neutral : forall f k t r v tf, 0 < t -> 0 < v ->
  std_E (fun z => exp (- r * t) * vanilla_payoff tf k (normal_at f v t z)) (match tf with Call => bach_call | Put => bach_put end f k t r v).
Proof.
  intros f k t r v tf T V. pose proof (sqrt_lt_R0 t T) as Q. set (w := v * sqrt t). assert (W : 0 < w) by (apply Rmult_lt_0_compat; assumption).
  assert (C : std_E (fun z => vanilla_payoff Call k (normal_at f v t z)) ((f - k) * ncdf (bd f k t v) + w * npdf (bd f k t v))).
  { set (F := fun z => (f - k) * ncdf z + - w * npdf z).
    assert (E : (f - k) * ncdf (bd f k t v) + w * npdf (bd f k t v) = ((f - k) * 1 + - w * 0) - F (- bd f k t v)) by (unfold F; rewrite ncdf_sym, npdf_even; ring).
    rewrite E. assert (B : forall z, normal_at f v t z - k = w * (z + bd f k t v)) by (intro z; unfold normal_at, bd, w; field; lra).
    apply (std_above _ (fun z => f - k + w * z) F (- bd f k t v)).
    - intros z Hz. unfold vanilla_payoff. rewrite B. apply Rmax_right. nra.
    - intros z Hz. unfold vanilla_payoff. rewrite Rmax_left by (rewrite B; nra). unfold normal_at. fold w. ring.
    - intro z. apply (ex_derive_continuous (K:=R_AbsRing) (V:=R_NormedModule) (fun z => f - k + w * z)). auto_derive. exact I.
    - intro z. apply (isd_eq _ _ ((0 * ncdf z + (f - k) * npdf z) + (0 * npdf z + - w * (- z * npdf z)))); [|ring].
      apply (d_add (fun z => (f - k) * ncdf z) (fun z => - w * npdf z)); [apply (d_mul (fun _ => f - k) ncdf)|apply (d_mul (fun _ => - w) npdf)]; try apply d_const; [apply ncdf_derive|apply npdf_derive].
    - apply is_lim_plus'; match goal with |- is_lim _ _ (Finite (?u * ?x)) => change (Finite (u * x)) with (Rbar_mult u x) end; apply is_lim_scal_l; [apply ncdf_lim_p|].
      apply (is_lim_ext (fun z => z ^ 0 * npdf z)); [intro z; simpl; apply Rmult_1_l|apply tail_p]. }
  destruct tf.
  - pose proof (std_lin _ _ (exp (- r * t)) 0 _ _ C (std_const 0)) as L. unfold bach_call, bdf. rewrite Rmult_0_l, Rplus_0_r in L. refine (std_ext _ _ _ _ L). intro z. ring.
  - assert (M : std_E (normal_at f v t) f). { replace f with (f + 0) at 2 by ring. apply (std_quadratic f w 0). intro z. unfold normal_at. fold w. ring. }
    pose proof (std_lin _ _ (exp (- r * t)) (exp (- r * t)) _ _ C (std_lin _ _ (-1) k _ _ M (std_const 1))) as L.
    match type of L with std_E _ ?e => replace e with (bach_put f k t r v) in L by (unfold bach_put, bdf; rewrite ncdf_sym; fold w; ring) end.
    refine (std_ext _ _ _ _ L). intro z. cbv beta. unfold vanilla_payoff. set (x := normal_at f v t z). unfold Rmax. destruct (Rle_dec (x - k) 0), (Rle_dec (k - x) 0); try ring; [|lra].
    assert (X : x = k) by lra. rewrite X. ring.
Qed.
Print Assumptions bachelier_risk_neutral.
Theorem bachelier_tower : forall f k t h r v tf, 0 < t -> 0 < h -> 0 < v ->
  let price := match tf with Call => bach_call | Put => bach_put end in
  std_E (fun z => exp (- r * h) * price (normal_at f v h z) k t r v) (price f k (t + h) r v).
Proof.
  intros f k t h r v tf T H V price. pose proof (sqrt_lt_R0 t T) as QT. pose proof (sqrt_lt_R0 h H) as QH. assert (TH : 0 < t + h) by lra. pose proof (sqrt_lt_R0 _ TH) as QS.
  set (a := (f - k) / (v * sqrt t)). set (be := sqrt h / sqrt t).
  assert (C : sqrt (1 + be ^ 2) = sqrt (t + h) / sqrt t) by (apply add_time; assumption).
  assert (FA : a / sqrt (1 + be ^ 2) = bd f k (t + h) v) by (rewrite C; unfold a, bd; field; lra).
  assert (B : forall z, bd (normal_at f v h z) k t v = a + be * z) by (intro z; unfold bd, normal_at, a, be; field; lra).
  assert (FK : forall z, normal_at f v h z - k = v * sqrt t * (a + be * z)) by (intro z; unfold normal_at, a, be; field; lra).
  pose proof (std_ncdf a be) as N0. pose proof (std_z_ncdf a be) as N1. pose proof (std_npdf a be) as N2. rewrite FA in N0, N1, N2. rewrite C in N1, N2. set (p := npdf (bd f k (t + h) v)) in *. set (N := ncdf (bd f k (t + h) v)) in *.
  assert (E : be * be + 1 = (sqrt (t + h) / sqrt t) * (sqrt (t + h) / sqrt t)).
  { rewrite <- C. rewrite sqrt_sqrt by (pose proof (pow2_ge_0 be); lra). ring. }
  assert (CALL : std_E (fun z => exp (- r * h) * bach_call (normal_at f v h z) k t r v) (bach_call f k (t + h) r v)).
  { pose proof (std_lin _ _ 1 (exp (- r * (t + h)) * (v * sqrt t)) _ _ (std_lin _ _ (exp (- r * (t + h)) * (v * sqrt t) * a) (exp (- r * (t + h)) * (v * sqrt t) * be) _ _ N0 N1) N2) as L.
    match type of L with std_E _ ?e => replace e with (bach_call f k (t + h) r v) in L end.
    - refine (std_ext _ _ _ _ L). intro z. cbv beta. unfold bach_call, bdf. rewrite FK, B. replace (- r * (t + h)) with (- r * h + - r * t) by ring. rewrite exp_plus. ring.
    - unfold bach_call, bdf. fold p N. transitivity (exp (- r * (t + h)) * (v * sqrt t * a * N + v * sqrt t * (p / (sqrt (t + h) / sqrt t)) * (be * be + 1))); [|ring]. rewrite E. unfold a. field. lra. }
  unfold price. destruct tf; [exact CALL|].
  assert (M : std_E (normal_at f v h) f). { replace f with (f + 0) at 2 by ring. apply (std_quadratic f (v * sqrt h) 0). intro z. unfold normal_at. ring. }
  pose proof (std_lin _ _ 1 (exp (- r * (t + h))) _ _ CALL (std_lin _ _ (-1) k _ _ M (std_const 1))) as L.
  match type of L with std_E _ ?e => replace e with (bach_put f k (t + h) r v) in L end.
  - refine (std_ext _ _ _ _ L). intro z. cbv beta. destruct (bach_parity (normal_at f v h z) k t r v) as [P _]. replace (- r * (t + h)) with (- r * h + - (r * t)) by ring. rewrite exp_plus.
    replace (bach_put (normal_at f v h z) k t r v) with (bach_call (normal_at f v h z) k t r v - exp (- (r * t)) * (normal_at f v h z - k)) by lra. ring.
  - destruct (bach_parity f k (t + h) r v) as [P _]. replace (- r * (t + h)) with (- (r * (t + h))) by ring. lra.
Qed.
Print Assumptions bachelier_tower.
Example tower_case : std_E (fun z => exp (- (5 / 100) * (1 / 4)) * call_price (lognormal_at 100 (5 / 100) (1 / 5) (1 / 4) z) 95 (1 / 2) (5 / 100) (5 / 100) (1 / 5)) (call_price 100 95 (1 / 2 + 1 / 4) (5 / 100) (5 / 100) (1 / 5)) /\
  std_E (fun z => exp (- 0 * 1) * bach_put (normal_at (-3) 2 1 z) 1 2 0 2) (bach_put (-3) 1 (2 + 1) 0 2).
Proof. split; [apply (bsm_tower 100 95 (1 / 2) (1 / 4) (5 / 100) (5 / 100) (1 / 5) Call); unfold adm; lra|apply (bachelier_tower (-3) 1 2 1 0 2 Put); lra]. Qed.
