(** The rational guess of implied_volatility.rs and the iterations that start
    from it. *)
From Coq Require Import Reals Lra Lia Psatz Arith Bool.
From Coquelicot Require Import Coquelicot.
From Verif Require Import Res InterpModel StatModel SpecialFns DistModel DistGauss BsmModel BsmProofs IvModel IvMath IvExp IvCubic IvBlack IvStep.
Open Scope R_scope.

(** ** Strict positivity of the interpolants *)
Lemma interp_pos x x_l x_r y_l y_r d_l d_r rf p :
  let D := (y_r - y_l) / (x_r - x_l) in let r := fmax (Fin rf) (minimum_rational_cubic_control_parameter d_l d_r D p) in
  x_l < x -> x <= x_r -> 0 <= y_l -> y_l < y_r -> 0 <= d_l -> 0 <= d_r -> (f64_min_pos <= D \/ p = true) ->
  0 < d_l \/ 0 < y_l -> 0 < interpolation x x_l x_r y_l y_r d_l d_r r.
Proof.
  intros D r L1 L2 Hy Ly Hl Hr Hp Hpos. assert (Lx : x_l < x_r) by lra. assert (HD : 0 < D) by (apply Rdiv_lt_0_compat; lra).
  pose proof (unit_range x x_l x_r Lx ltac:(lra)) as U.
  assert (T0 : 0 < (x - x_l) / (x_r - x_l)) by (apply Rdiv_lt_0_compat; lra). set (t := (x - x_l) / (x_r - x_l)) in *.
  destruct (below_max_case r) as [(r0 & Er & Hr0)|Er].
  - destruct (convex_control_monotone rf d_l d_r D p r0) as (N & B & Pr); try assumption; [apply Rmult_le_pos; lra..|destruct Hp as [Hp|Hp]; [left; rewrite Rabs_right; lra|now right]|].
    rewrite Er, interpolation_cubic by assumption. fold t. clearbody t. unfold cubic. set (h := x_r - x_l) in *.
    assert (Hh : 0 < h) by (unfold h; lra).
    assert (HB : h * (d_r + d_l) <= r0 * (y_r - y_l)).
    { apply (Rmult_le_compat_r (D * h)) in B; [|apply Rmult_le_pos; lra]. replace ((d_r + d_l) / D * (D * h)) with (h * (d_r + d_l)) in B by (field; lra). replace (r0 * (D * h)) with (r0 * (y_r - y_l)) in B by (unfold D; field; unfold h; lra). exact B. }
    apply Rdiv_lt_0_compat; [|apply den_pos; lra].
    assert (R0 : 0 <= r0) by lra.
    assert (A1 : 0 <= r0 * y_r - h * d_r) by nra. assert (A2 : 0 <= r0 * y_l + h * d_l) by (apply Rplus_le_le_0_compat; apply Rmult_le_pos; lra).
    assert (A3 : 0 < y_r * (t * t) * t) by (repeat apply Rmult_lt_0_compat; lra).
    assert (0 <= (r0 * y_r - h * d_r) * (t * t) * (1 - t)) by (repeat apply Rmult_le_pos; lra).
    assert (0 <= (r0 * y_l + h * d_l) * t * ((1 - t) * (1 - t))) by (repeat apply Rmult_le_pos; lra).
    assert (0 <= y_l * ((1 - t) * (1 - t)) * (1 - t)) by (repeat apply Rmult_le_pos; lra). lra.
  - rewrite interpolation_linear by assumption. fold t. clearbody t. nra.
Qed.
Lemma interp_pos_dec x x_l x_r y_l d_l d_r rf :
  let D := (0 - y_l) / (x_r - x_l) in let r := fmax (Fin rf) (minimum_rational_cubic_control_parameter d_l d_r D true) in
  x_l <= x -> x < x_r -> 0 < y_l -> d_l <= 0 -> d_r <= 0 -> 0 < interpolation x x_l x_r y_l 0 d_l d_r r.
Proof.
  intros D r L1 L2 Hy Hl Hr. assert (Lx : x_l < x_r) by lra. assert (HD : D < 0) by (unfold D, Rdiv; rewrite Rminus_0_l, <- Ropp_mult_distr_l; apply Ropp_lt_gt_0_contravar; apply Rdiv_lt_0_compat; lra).
  pose proof (unit_range x x_l x_r Lx ltac:(lra)) as U.
  assert (T1 : (x - x_l) / (x_r - x_l) < 1) by (apply Rmult_lt_reg_r with (x_r - x_l); [lra|]; unfold Rdiv; rewrite Rmult_assoc, Rinv_l by lra; lra). set (t := (x - x_l) / (x_r - x_l)) in *.
  destruct (below_max_case r) as [(r0 & Er & Hr0)|Er].
  - destruct (convex_control_monotone rf d_l d_r D true r0) as (N & B & Pr); try assumption; [nra..|now right|].
    rewrite Er, interpolation_cubic by assumption. fold t. clearbody t. unfold cubic. set (h := x_r - x_l) in *. assert (Hh : 0 < h) by (unfold h; lra).
    assert (HB : - (h * (d_r + d_l)) <= r0 * y_l).
    { apply (Rmult_le_compat_r (- D * h)) in B; [|apply Rmult_le_pos; lra]. replace ((d_r + d_l) / D * (- D * h)) with (- (h * (d_r + d_l))) in B by (field; lra). replace (r0 * (- D * h)) with (r0 * y_l) in B by (unfold D; field; unfold h; lra). exact B. }
    apply Rdiv_lt_0_compat; [|apply den_pos; lra].
    assert (A1 : 0 <= r0 * 0 - h * d_r) by nra. assert (A2 : 0 <= r0 * y_l + h * d_l) by nra.
    assert (A3 : 0 < y_l * ((1 - t) * (1 - t)) * (1 - t)) by (repeat apply Rmult_lt_0_compat; lra).
    assert (0 <= (r0 * 0 - h * d_r) * (t * t) * (1 - t)) by (repeat apply Rmult_le_pos; lra).
    assert (0 <= (r0 * y_l + h * d_l) * t * ((1 - t) * (1 - t))) by (repeat apply Rmult_le_pos; lra). lra.
  - rewrite interpolation_linear by assumption. fold t. clearbody t. nra.
Qed.

(** ** The centre and the outer nodes *)
Lemma Y0_bounds : 5 / 4 <= Y 0 <= 2.
Proof.
  unfold Y, npdf. rewrite ncdf_0. replace (- / 2 * 0 ^ 2) with 0 by ring. rewrite exp_0. pose proof sqrt_2PI_pos as Q.
  replace (/ 2 / (/ sqrt (2 * PI) * 1)) with (sqrt (2 * PI) / 2) by (field; lra).
  assert (sqrt (2 * PI) <= 4). { rewrite <- (sqrt_pow2 4) by lra. apply sqrt_le_1_alt. pose proof PI_4. lra. }
  assert (25 / 10 <= sqrt (2 * PI)); [|lra]. rewrite <- (sqrt_pow2 (25 / 10)) by lra. apply sqrt_le_1_alt.
  pose proof (PI_ineq 12) as [P _]. assert (3125 / 1000 <= PI); [|lra].
  pose proof (Machin.PI_2_3_7_ineq 0) as [P7 _]. cbn [mult sum_f_R0] in P7. unfold tg_alt, Machin.PI_2_3_7_tg, Ratan_seq in P7. simpl in P7. lra.
Qed.
Lemma Y_diff_le a b : a < b -> b <= 0 -> 0 < Y b - Y a <= b - a /\ (b < 0 -> Y b - Y a < b - a).
Proof.
  intros L Hb. destruct (mvt Y (Yd 1) a b L) as (c & Hc & E); [intros; apply (Yd_derive 0)|]. rewrite E.
  pose proof (Yd_pos 1 c) as P. pose proof (Yd_pos 0 c) as P0. rewrite Yd_0 in P0. assert (Q : Yd 1 c = 1 + c * Y c) by apply Yd_1.
  assert (P1 : c * Y c <= 0) by nra. split; [split; [apply Rmult_lt_0_compat; lra|]|].
  - rewrite <- (Rmult_1_l (b - a)) at 2. apply Rmult_le_compat_r; lra.
  - intros N. assert (c * Y c < 0) by nra. rewrite <- (Rmult_1_l (b - a)) at 2. apply Rmult_lt_compat_r; lra.
Qed.
Lemma Y_diff s : 0 < s -> 0 < Y 0 - Y (- s) < s.
Proof.
  intros Hs. destruct (Y_diff_le (- (s / 2)) 0 ltac:(lra) ltac:(lra)) as [A _]. destruct (Y_diff_le (- s) (- (s / 2)) ltac:(lra) ltac:(lra)) as [B C]. specialize (C ltac:(lra)). lra.
Qed.
Lemma Y_gap s : 0 < s -> Rmin (s * s / 8) (/ 8) <= s - (Y 0 - Y (- s)).
Proof.
  intros Hs. set (f := fun s => s + Y (- s)). set (df := fun s => s * Y (- s)).
  assert (D : forall u, is_derive f u (df u)).
  { intros u. unfold f, df. eapply isd_eq; [apply d_add; [apply d_id|apply (is_derive_comp Y (fun u => - u) u (1 + (- u) * Y (- u)) (-1)); [apply Y_derive|auto_derive; [exact I|match goal with |- ?u = ?v => change (@eq R u v) end; ring]]]|].
    unfold scal; simpl; unfold mult; simpl. ring. }
  assert (YP : forall u, 0 < Y u) by (intros u; rewrite <- Yd_0; apply Yd_pos).
  assert (S1 : forall s, 0 < s -> s <= 1 -> s * s / 8 <= s - (Y 0 - Y (- s))).
  { intros u Hu Hu1. destruct (mvt (fun s => f s - s * s / 8) (fun s => df s - s / 4) 0 u Hu) as (c & Hc & E).
    - intros z _. apply d_sub; [apply D|]. auto_derive; [exact I|]. match goal with |- ?u = ?v => change (@eq R u v) end. field.
    - unfold f, df in E. rewrite Ropp_0 in E. pose proof Y0_bounds. assert (/ 4 <= Y (- c)) by (destruct (Req_dec c 0) as [Z|Z]; [rewrite Z, Ropp_0; lra|pose proof (Y_diff c ltac:(lra)); lra]).
      assert (0 <= c * Y (- c) - c / 4) by nra. nra. }
  destruct (Rle_lt_dec s 1) as [L|L]; [eapply Rle_trans; [apply Rmin_l|now apply S1]|]. eapply Rle_trans; [apply Rmin_r|].
  destruct (mvt f df 1 s L) as (c & Hc & E); [intros; apply D|]. unfold f, df in E. pose proof (S1 1 ltac:(lra) ltac:(lra)). pose proof (YP (- c)). assert (0 <= c * Y (- c)) by nra. nra.
Qed.

(** below the asymptotic region the code never overestimates *)
Lemma otm_below x s : x <= 0 -> 0 < s -> - (978 / 100) * s <= x + / 2 * s * s -> 0 <= normalised_black_call_otm x s <= nblack x s.
Proof.
  intros Hx Hs H2. pose proof (nblack_pos x s Hs) as BP.
  destruct (Rle_lt_dec SMALL_T_EXPANSION_OF_NORMALIZED_BLACK_THRESHOLD (/ 2 * s)) as [L|L]; [rewrite otm_exact by assumption; lra|].
  unfold normalised_black_call_otm, DENORMALIZATION_CUTOFF. rewrite Rmult_0_r. destruct (Rleb_spec s 0) as [N|_]; [lra|]. assert (Ht : / 2 * s = s / 2) by field.
  assert (C : Rltb x (s * ASYMPTOTIC_EXPANSION_ACCURACY_THRESHOLD) && Rltb (/ 2 * s * s + x) (s * (SMALL_T_EXPANSION_OF_NORMALIZED_BLACK_THRESHOLD + ASYMPTOTIC_EXPANSION_ACCURACY_THRESHOLD)) = false).
  { apply andb_false_intro2. match goal with |- Rltb ?a ?b = false => destruct (Rltb_spec a b) as [L'|]; [exfalso|reflexivity] end.
    unfold SMALL_T_EXPANSION_OF_NORMALIZED_BLACK_THRESHOLD, SIXTEENTH_ROOT_DBL_EPSILON, ASYMPTOTIC_EXPANSION_ACCURACY_THRESHOLD in L'. lra. }
  rewrite C. destruct (Rltb_spec (/ 2 * s) SMALL_T_EXPANSION_OF_NORMALIZED_BLACK_THRESHOLD) as [_|N]; [|lra].
  unfold SMALL_T_EXPANSION_OF_NORMALIZED_BLACK_THRESHOLD, SIXTEENTH_ROOT_DBL_EPSILON in L.
  unfold small_t_expansion_of_normalized_black_call. rewrite Ht in *. set (h := x / s) in *. set (t := s / 2) in *.
  assert (Hh : h <= 0) by (unfold h; apply Rmult_le_0_r; [exact Hx|left; apply Rinv_0_lt_compat, Hs]). assert (Tp : 0 < t) by (unfold t; lra).
  replace (1 + h * (/ 2 * SQRT_TWO_PI) * erfcx (- (/ sqrt 2) * h)) with (1 + h * Y h).
  2:{ rewrite erfcx_Y. unfold SQRT_TWO_PI. pose proof sqrt_2PI_pos. field. apply Rgt_not_eq. assumption. }
  split; [apply Rmax_r|]. apply Rmax_lub; [|lra]. rewrite nblack_Y by lra. fold h t. unfold ONE_OVER_SQRT_TWO_PI.
  replace (h * h + t * t) with (h ^ 2 + t ^ 2) by ring. fold (pref h t). pose proof (pref_pos h t) as PP. apply Rmult_le_compat_l; [lra|].
  assert (T2 : t <= 21023 / 100000) by lra. pose proof (small_t_error h t Hh Tp T2) as E. unfold Dd in E. cbn [Yd pow] in E. rewrite Rmult_1_l in E. lra.
Qed.
Lemma black_otm x s : x <= 0 -> normalised_black_call x s = normalised_black_call_otm x s.
Proof. intros Hx. unfold normalised_black_call. destruct (Rltb_spec 0 x); [lra|reflexivity]. Qed.
Lemma black_nonneg x s : x <= 0 -> 0 <= normalised_black_call x s.
Proof.
  intros Hx. rewrite black_otm by exact Hx. unfold normalised_black_call_otm.
  repeat match goal with |- context [if ?c then _ else _] => destruct c end; unfold normalised_intrinsic_call, normalised_intrinsic,
   asymptotic_expansion_of_normalized_black_call, small_t_expansion_of_normalized_black_call, normalized_black_call_using_norm_cdf, normalised_black_call_using_erfcx; cbv zeta; try apply Rmax_r.
  repeat match goal with |- context [if ?c then _ else _] => destruct c end; try apply Rmax_r; lra.
Qed.

(** everything the solver computes about its nodes *)
Lemma centre x : x < 0 -> - 10 ^ 6 <= x ->
  let s_c := sqrt (Rabs (2 * x)) in let b_c := normalised_black_call x s_c in let v_c := normalised_vega x s_c in
  0 < s_c /\ s_c * s_c = - 2 * x /\ v_c = nvega x s_c /\ 0 < v_c <= / sqrt (2 * PI) /\ 0 <= b_c <= nblack x s_c /\ b_c < / 2 * exp (x / 2) /\
  Rabs x * SQRT_DBL_MIN < s_c - b_c / v_c /\ 0 < s_c - b_c / v_c.
Proof.
  intros Hx Hb s_c b_c v_c. assert (A : Rabs (2 * x) = - 2 * x) by (rewrite Rabs_left; lra).
  assert (Sp : 0 < s_c) by (unfold s_c; apply sqrt_lt_R0; lra). assert (S2 : s_c * s_c = - 2 * x) by (unfold s_c; rewrite A; apply sqrt_sqrt; lra).
  assert (AX : Rabs x = - x) by (apply Rabs_left; lra).
  assert (DM : 0 < SQRT_DBL_MIN < / 10 ^ 8).
  { unfold SQRT_DBL_MIN. split; [apply Rinv_0_lt_compat, pow_lt; lra|]. apply Rinv_lt_contravar; [apply Rmult_lt_0_compat; apply pow_lt; lra|]. replace 511%nat with (27 + 484)%nat by reflexivity. rewrite pow_add. assert (1 <= 2 ^ 484) by (apply pow_R1_Rle; lra). assert (10 ^ 8 < 2 ^ 27) by lra. nra. }
  assert (SB : s_c <= 1500) by nra.
  assert (VX : v_c = nvega x s_c). { apply vega_exact; [exact Sp|]. rewrite AX. assert (- x * SQRT_DBL_MIN < - x * / 10 ^ 8) by nra. nra. }
  assert (VB : 0 < v_c <= / sqrt (2 * PI)).
  { rewrite VX. split; [apply nvega_pos|]. unfold nvega. assert (exp (- / 2 * ((x / s_c) ^ 2 + (s_c / 2) ^ 2)) <= 1). { rewrite <- exp_0 at 1. destruct (Req_dec ((x / s_c) ^ 2 + (s_c / 2) ^ 2) 0) as [E|E]; [rewrite E, Rmult_0_r; lra|]. left. apply exp_increasing. pose proof (pow2_ge_0 (x / s_c)). pose proof (pow2_ge_0 (s_c / 2)). lra. }
    assert (0 < / sqrt (2 * PI)) by (apply Rinv_0_lt_compat, sqrt_2PI_pos). nra. }
  assert (HT : x / s_c = - (s_c / 2)). { apply Rmult_eq_reg_r with s_c; [|lra]. unfold Rdiv at 1. rewrite Rmult_assoc, Rinv_l by lra. lra. }
  assert (BB : 0 <= b_c <= nblack x s_c). { unfold b_c. rewrite black_otm by lra. apply otm_below; lra. }
  assert (NB : nblack x s_c = v_c * (Y 0 - Y (- s_c))).
  { rewrite nblack_Y by lra. rewrite HT. replace (- (s_c / 2) + s_c / 2) with 0 by ring. replace (- (s_c / 2) - s_c / 2) with (- s_c) by field. f_equal. rewrite VX. unfold nvega, pref. rewrite HT. reflexivity. }
  assert (GAP : s_c - (Y 0 - Y (- s_c)) <= s_c - b_c / v_c).
  { assert (b_c / v_c <= Y 0 - Y (- s_c)); [|lra]. apply Rmult_le_reg_r with v_c; [lra|]. unfold Rdiv. rewrite Rmult_assoc, Rinv_l by lra. lra. }
  pose proof (Y_gap s_c Sp) as YG.
  assert (LO : Rmin (s_c * s_c / 8) (/ 8) <= s_c - b_c / v_c) by lra. clear YG GAP.
  assert (BC2 : b_c < / 2 * exp (x / 2)).
  { assert (nblack x s_c < / 2 * exp (x / 2)); [|lra]. unfold nblack. rewrite HT. replace (- (s_c / 2) + s_c / 2) with 0 by ring. rewrite ncdf_0.
    pose proof (ncdf_bound (- (s_c / 2) - s_c / 2)). pose proof (exp_pos (- x / 2)). nra. }
  assert (MI : 0 < Rmin (s_c * s_c / 8) (/ 8)) by (apply Rmin_glb_lt; nra).
  repeat split; try assumption; try lra.
  eapply Rlt_le_trans; [|exact LO]. rewrite AX. assert (XD : - x * SQRT_DBL_MIN < - x * / 10 ^ 8) by nra. apply Rmin_glb_lt; nra.
Qed.

(** ** The first guess *)
Lemma control_right_form x_l x_r y_l y_r d_l d_r dd p : exists rf, convex_control_right x_l x_r y_l y_r d_l d_r dd p = fmax (Fin rf) (minimum_rational_cubic_control_parameter d_l d_r ((y_r - y_l) / (x_r - x_l)) p).
Proof. eexists. reflexivity. Qed.
Lemma control_left_form x_l x_r y_l y_r d_l d_r dd p : exists rf, convex_control_left x_l x_r y_l y_r d_l d_r dd p = fmax (Fin rf) (minimum_rational_cubic_control_parameter d_l d_r ((y_r - y_l) / (x_r - x_l)) p).
Proof. eexists. reflexivity. Qed.
Lemma min_pos_small : 0 < f64_min_pos < 1.
Proof. unfold f64_min_pos. split; [apply Rinv_0_lt_compat, pow_lt; lra|]. rewrite <- Rinv_1. apply Rinv_lt_contravar; [rewrite Rmult_1_l; apply pow_lt; lra|]. apply Rlt_pow_R1; [lra|lia]. Qed.
Lemma inv_vega v : 0 < v <= / sqrt (2 * PI) -> 2 <= 1 / v.
Proof.
  intros H. assert (2 <= sqrt (2 * PI)). { rewrite <- (sqrt_pow2 2) at 1 by lra. apply sqrt_le_1_alt. pose proof PI2_3_2. lra. }
  unfold Rdiv. rewrite Rmult_1_l. assert (sqrt (2 * PI) <= / v); [|lra]. rewrite <- (Rinv_inv (sqrt (2 * PI))). apply Rinv_le_contravar; lra.
Qed.
Lemma nvega_le x s : nvega x s <= / sqrt (2 * PI).
Proof.
  unfold nvega. assert (0 < / sqrt (2 * PI)) by (apply Rinv_0_lt_compat, sqrt_2PI_pos).
  assert (exp (- / 2 * ((x / s) ^ 2 + (s / 2) ^ 2)) <= 1); [|nra]. rewrite <- exp_0 at 1. pose proof (pow2_ge_0 (x / s)). pose proof (pow2_ge_0 (s / 2)).
  destruct (Rle_lt_dec ((x / s) ^ 2 + (s / 2) ^ 2) 0) as [E|E]; [right; f_equal; lra|left; apply exp_increasing; lra].
Qed.
Lemma std_inv_pos erf_inv p : erf_inv_spec erf_inv -> 0 < p < / 2 -> gaussian_inv_cdf erf_inv 0 1 p < 0.
Proof.
  intros S Hp. destruct (gaussian_cdf_quantile 0 1) as (_ & _ & Q & _). { unfold gaussian_new. destruct (Rltb_spec 0 1); [reflexivity|lra]. }
  pose proof (Q erf_inv p S ltac:(lra)) as E. rewrite gcdf_ncdf, sqrt_1 in E by lra. replace ((gaussian_inv_cdf erf_inv 0 1 p - 0) / 1) with (gaussian_inv_cdf erf_inv 0 1 p) in E by field.
  destruct (Rlt_le_dec (gaussian_inv_cdf erf_inv 0 1 p) 0) as [L|L]; [exact L|]. apply ncdf_le in L. rewrite ncdf_0 in L. lra.
Qed.
Lemma std_inv_mono erf_inv p z : erf_inv_spec erf_inv -> 0 < p -> p <= ncdf z -> gaussian_inv_cdf erf_inv 0 1 p <= z.
Proof.
  intros S Hp H. pose proof (ncdf_bound z). destruct (gaussian_cdf_quantile 0 1) as (_ & _ & Q & _). { unfold gaussian_new. destruct (Rltb_spec 0 1); [reflexivity|lra]. }
  pose proof (Q erf_inv p S ltac:(lra)) as E. rewrite gcdf_ncdf, sqrt_1 in E by lra. replace ((gaussian_inv_cdf erf_inv 0 1 p - 0) / 1) with (gaussian_inv_cdf erf_inv 0 1 p) in E by field.
  destruct (Rle_lt_dec (gaussian_inv_cdf erf_inv 0 1 p) z) as [L|L]; [exact L|]. apply ncdf_increasing in L. lra.
Qed.

Lemma lowest_guess erf_inv beta x s_l b_l : erf_inv_spec erf_inv -> x < 0 -> 0 < s_l -> 0 < beta < b_l ->
  0 < sg_s (lowest_segment erf_inv beta x s_l b_l) <= s_l.
Proof.
  intros HS Hx Hs Hb. unfold lowest_segment. rewrite fl_lower. cbv zeta. cbn [sg_s].
  pose proof sqrt3_pos as S3. pose proof PI_RGT_0 as PP. assert (A : 0 < Rabs x) by (apply Rabs_pos_lt; lra).
  set (z := Rabs x / (sqrt 3 * s_l)). set (P := ncdf (- z)). assert (Zp : 0 < z) by (unfold z; apply Rdiv_lt_0_compat; [exact A|apply Rmult_lt_0_compat; lra]).
  assert (P2 : 0 < P < / 2). { unfold P. split; [apply ncdf_bound|]. rewrite <- ncdf_0. apply ncdf_increasing. lra. }
  assert (C0 : 0 < 2 * PI / sqrt 27 * Rabs x). { rewrite sq27. apply Rmult_lt_0_compat; [apply Rdiv_lt_0_compat; lra|exact A]. }
  set (c := 2 * PI / sqrt 27 * Rabs x) in *. assert (P3 : 0 < P ^ 3) by (apply pow_lt; lra). assert (F0 : 0 < c * P ^ 3) by (apply Rmult_lt_0_compat; assumption).
  set (fp := 2 * PI * z ^ 2 * P ^ 2 * exp (z ^ 2 + s_l ^ 2 / 8)). assert (FP : 0 <= fp). { unfold fp. pose proof (exp_pos (z ^ 2 + s_l ^ 2 / 8)). pose proof (pow2_ge_0 z). pose proof (pow2_ge_0 P). apply Rmult_le_pos; [apply Rmult_le_pos; [apply Rmult_le_pos|]|]; lra. }
  match goal with |- context [interpolation beta 0 b_l 0 (c * P ^ 3) 1 fp ?r] => destruct (control_right_form 0 b_l 0 (c * P ^ 3) 1 fp (snd (compute_f_lower_map_and_first_two_derivatives x s_l)) true) as [rf ER]; assert (ER' : r = fmax (Fin rf) (minimum_rational_cubic_control_parameter 1 fp ((c * P ^ 3 - 0) / (b_l - 0)) true)) end.
  { rewrite <- ER, fl_lower. reflexivity. }
  rewrite ER'. clear ER ER'.
  pose proof (interp_pos beta 0 b_l 0 (c * P ^ 3) 1 fp rf true) as IP. cbv zeta in IP. specialize (IP ltac:(lra) ltac:(lra) ltac:(lra) F0 ltac:(lra) FP ltac:(now right) ltac:(left; lra)).
  pose proof (cubic_monotone 0 b_l 0 (c * P ^ 3) 1 fp rf true) as IM. cbv zeta in IM. specialize (IM ltac:(lra) F0 ltac:(lra) FP ltac:(now right) beta beta ltac:(lra) ltac:(lra) ltac:(lra)).
  set (f := interpolation _ _ _ _ _ _ _ _) in *. clearbody f. destruct (Rleb_spec f 0) as [N|_]; [lra|].
  unfold inverse_f_lower_map, is_below_horizon, DENORMALIZATION_CUTOFF. destruct (Rltb_spec (Rabs f) 0) as [N|_]; [pose proof (Rabs_pos f); lra|].
  change (TWO_PI_OVER_SQRT_TWENTY_SEVEN * Rabs x) with c. change SQRT_THREE with (sqrt 3).
  assert (FC : 0 < f / c <= P ^ 3). { split; [apply Rdiv_lt_0_compat; lra|]. apply Rmult_le_reg_r with c; [exact C0|]. unfold Rdiv. rewrite Rmult_assoc, Rinv_l by lra. lra. }
  set (q := Rpower (f / c) (1 / 3)). assert (Q0 : 0 < q) by apply exp_pos.
  assert (Q1 : q <= P). { unfold q. replace P with (Rpower (P ^ 3) (1 / 3)). - apply Rle_Rpower_l; lra. - rewrite <- Rpower_pow by lra. rewrite Rpower_mult. replace (INR 3 * (1 / 3)) with 1 by (simpl; field). apply Rpower_1; lra. }
  pose proof (std_inv_mono erf_inv q (- z) HS Q0 Q1) as ZB. set (g := gaussian_inv_cdf erf_inv 0 1 q) in *. clearbody g.
  replace (x / (sqrt 3 * g)) with (- (x / (sqrt 3 * - g))) by (field; lra). rewrite Rabs_Ropp. unfold Rdiv at 1 2. rewrite !Rabs_mult, !(Rabs_right (/ _)) by (left; apply Rinv_0_lt_compat, Rmult_lt_0_compat; lra).
  split; [apply Rmult_lt_0_compat; [exact A|apply Rinv_0_lt_compat, Rmult_lt_0_compat; lra]|].
  apply Rle_trans with (Rabs x * / (sqrt 3 * z)); [|right; unfold z; field; lra].
  apply Rmult_le_compat_l; [lra|]. apply Rinv_le_contravar; [apply Rmult_lt_0_compat; lra|]. apply Rmult_le_compat_l; lra.
Qed.
Lemma highest_guess erf_inv beta x b_max s_u b_u : erf_inv_spec erf_inv -> 0 < s_u -> 0 <= b_u < beta -> beta < b_max -> b_max <= 1 ->
  0 < sg_s (highest_segment erf_inv beta x b_max s_u b_u) /\
  (Rabs (snd (compute_f_upper_map_and_first_two_derivatives x s_u)) < SQRT_DBL_MAX -> s_u <= sg_s (highest_segment erf_inv beta x b_max s_u b_u)).
Proof.
  intros HS Hs Hb Hm H1. unfold highest_segment. rewrite fl_upper. cbv zeta. cbn [sg_s snd].
  set (fu := ncdf (- (s_u / 2))). set (d2 := sqrt (PI / 2) * _ * _).
  assert (FU : 0 < fu < / 2). { unfold fu. split; [apply ncdf_bound|]. rewrite <- ncdf_0. apply ncdf_increasing. lra. }
  set (dl := - / 2 * exp _). assert (DL : dl < 0) by (unfold dl; match goal with |- context [exp ?u] => pose proof (exp_pos u) end; lra).
  destruct (control_left_form b_u b_max fu 0 dl (- / 2) d2 true) as [rf ER]. rewrite ER. clear ER.
  pose proof (interp_pos_dec beta b_u b_max fu dl (- / 2) rf) as IP. cbv zeta in IP. specialize (IP ltac:(lra) Hm ltac:(lra) ltac:(lra) ltac:(lra)).
  pose proof (cubic_monotone_decreasing b_u b_max fu 0 dl (- / 2) rf true) as IM. cbv zeta in IM. specialize (IM ltac:(lra) ltac:(lra) ltac:(lra) ltac:(lra) ltac:(now right) beta beta ltac:(lra) ltac:(lra) ltac:(lra)).
  set (f := interpolation _ _ _ _ _ _ _ _) in *. clearbody f. unfold inverse_f_upper_map.
  set (cnd := Rltb (- SQRT_DBL_MAX) d2 && Rltb d2 SQRT_DBL_MAX).
  assert (FM : - f64_max < 0). { unfold f64_max. replace 1024%nat with (971 + 53)%nat by reflexivity. rewrite pow_add. assert (0 < 2 ^ 971) by (apply pow_lt; lra). assert (1 < 2 ^ 53) by (apply Rlt_pow_R1; [lra|lia]). nra. }
  split.
  - assert (F : 0 < (if Rleb (if cnd then f else - f64_max) 0 then (fu * (1 - (beta - b_u) / (b_max - b_u)) + / 2 * (b_max - b_u) * ((beta - b_u) / (b_max - b_u))) * (1 - (beta - b_u) / (b_max - b_u)) else if cnd then f else - f64_max) < / 2).
    { destruct cnd.
      - destruct (Rleb_spec f 0) as [N|_]; lra.
      - destruct (Rleb_spec (- f64_max) 0) as [_|N]; [|lra]. pose proof (unit_range beta b_u b_max ltac:(lra) ltac:(lra)) as U.
        assert (T0 : 0 < (beta - b_u) / (b_max - b_u)) by (apply Rdiv_lt_0_compat; lra).
        assert (T1 : (beta - b_u) / (b_max - b_u) < 1) by (apply Rmult_lt_reg_r with (b_max - b_u); [lra|]; unfold Rdiv; rewrite Rmult_assoc, Rinv_l by lra; lra).
        set (t := (beta - b_u) / (b_max - b_u)) in *. clearbody t. assert (M1 : 0 < fu * (1 - t) + / 2 * (b_max - b_u) * t < / 2). { split; [nra|]. assert (/ 2 * (b_max - b_u) * t <= / 2 * t) by nra. nra. }
        nra. }
    match goal with |- 0 < - 2 * gaussian_inv_cdf erf_inv 0 1 ?p => pose proof (std_inv_pos erf_inv p HS F) end. lra.
  - intros HD. apply Rabs_def2 in HD. assert (cnd = true) as ->. { unfold cnd. destruct (Rltb_spec (- SQRT_DBL_MAX) d2); [|lra]. destruct (Rltb_spec d2 SQRT_DBL_MAX); [reflexivity|lra]. }
    destruct (Rleb_spec f 0) as [N|_]; [lra|]. pose proof (std_inv_mono erf_inv f (- (s_u / 2)) HS ltac:(lra) ltac:(fold fu; lra)). lra.
Qed.

(** The first guess of every segment is positive, its bracket is well formed, and
    the guess lies in the bracket unless the curvature of the upper map overflows.
    The Section's external inverse error function enters only by its defining
    property. *)
Theorem first_guess : forall erf_inv beta x, erf_inv_spec erf_inv -> - 10 ^ 6 <= x <= 0 -> 0 < beta < exp (x / 2) ->
  let sg := choose_segment erf_inv beta x in
  0 < sg_s sg /\ 0 <= sg_left sg /\ 0 < sg_right sg /\
  (sg_right sg < f64_max -> sg_s sg <= sg_right sg /\ (sg_left sg <> f64_min_pos -> sg_left sg <= sg_s sg)).
Proof.
  intros erf_inv beta x HS Hx Hb sg. unfold sg. clear sg. unfold choose_segment. replace (exp (/ 2 * x)) with (exp (x / 2)) by (f_equal; field). cbv zeta.
  assert (M1 : exp (x / 2) <= 1). { rewrite <- exp_0. destruct (Req_dec x 0) as [->|]; [right; f_equal; field|left; apply exp_increasing; lra]. }
  pose proof min_pos_small as MP.
  assert (FM : 0 < f64_max). { unfold f64_max. replace 1024%nat with (971 + 53)%nat by reflexivity. rewrite pow_add. assert (0 < 2 ^ 971) by (apply pow_lt; lra). assert (1 < 2 ^ 53) by (apply Rlt_pow_R1; [lra|lia]). nra. }
  (* the upper half, for both signs of s_c *)
  assert (UP : forall s_c b_c v_c, 0 <= s_c -> (0 < s_c \/ b_c = 0) -> 0 < v_c <= / sqrt (2 * PI) -> 0 <= b_c <= beta -> b_c <= / 2 * exp (x / 2) -> Rabs x * SQRT_DBL_MIN <= s_c -> (f64_eps < v_c \/ 0 < s_c) ->
    (f64_eps < v_c \/ b_c = normalised_black_call x s_c) ->
    let s_u := if Rltb f64_eps v_c then s_c + (exp (x / 2) - b_c) / v_c else s_c in
    let b_u := normalised_black_call x s_u in
    let sg := if Rleb beta b_u then upper_middle_segment beta x s_c b_c v_c s_u b_u else highest_segment erf_inv beta x (exp (x / 2)) s_u b_u in
    0 < sg_s sg /\ 0 <= sg_left sg /\ 0 < sg_right sg /\ (sg_right sg < f64_max -> sg_s sg <= sg_right sg /\ (sg_left sg <> f64_min_pos -> sg_left sg <= sg_s sg))).
  { intros s_c b_c v_c Hs Hs0 Hv Hbc Hbm HX HE HN s_u b_u.
    assert (SU : 0 < s_u /\ s_c <= s_u /\ Rabs x * SQRT_DBL_MIN <= s_u /\ (f64_eps < v_c -> s_u = s_c + (exp (x / 2) - b_c) / v_c /\ s_c < s_u)).
    { assert (Q : 0 < (exp (x / 2) - b_c) / v_c) by (apply Rdiv_lt_0_compat; lra). unfold s_u. destruct (Rltb_spec f64_eps v_c) as [L|L]; repeat split; lra. }
    destruct SU as (SU0 & SU1 & SU2 & SU3).
    destruct (Rleb_spec beta b_u) as [L|L].
    - unfold upper_middle_segment. cbn [sg_s sg_left sg_right]. destruct (control_left_form b_c b_u s_c s_u (1 / v_c) (1 / normalised_vega x s_u) 0 false) as [rf ER]. rewrite ER. clear ER.
      destruct (Req_dec b_c b_u) as [EB|EB].
      + unfold interpolation. replace (b_u - b_c) with 0 by lra. rewrite Rabs_R0. destruct (Rleb_spec 0 0) as [_|N]; [|lra]. repeat split; try lra.
      + assert (LB : b_c < b_u) by lra.
        assert (EPS : f64_eps < v_c). { destruct HN as [N|N]; [exact N|]. destruct (Rlt_le_dec f64_eps v_c) as [N2|N2]; [exact N2|]. exfalso. apply EB. unfold b_u, s_u. destruct (Rltb_spec f64_eps v_c); [lra|exact N]. }
        destruct (SU3 EPS) as [SE SL]. destruct SU2 as [SU2|SU2].
        2:{ exfalso. lra. }
        rewrite (vega_exact x s_u SU0 SU2). pose proof (nvega_pos x s_u) as VP. pose proof (nvega_le x s_u) as VL. pose proof (inv_vega _ (conj VP VL)) as V2. pose proof (inv_vega _ Hv) as V1.
        assert (BU : b_u <= (1 + 2 / 10 ^ 14) * exp (x / 2)). { destruct (normalised_black_accurate x s_u SU0) as [_ AC]. fold b_u in AC. pose proof (nblack_lt x s_u SU0) as NL. pose proof (nblack_pos x s_u SU0) as NP. apply Rabs_le_between in AC. lra. }
        assert (DD : f64_min_pos <= (s_u - s_c) / (b_u - b_c)).
        { rewrite SE. replace (s_c + (exp (x / 2) - b_c) / v_c - s_c) with ((exp (x / 2) - b_c) * (1 / v_c)) by (field; lra). apply Rmult_le_reg_r with (b_u - b_c); [lra|]. unfold Rdiv at 1. rewrite (Rmult_assoc ((exp (x / 2) - b_c) * _)), Rinv_l, Rmult_1_r by lra.
          pose proof (exp_pos (x / 2)). nra. }
        pose proof (cubic_monotone b_c b_u s_c s_u (1 / v_c) (1 / nvega x s_u) rf false) as IM. cbv zeta in IM. specialize (IM LB SL ltac:(lra) ltac:(lra) ltac:(now left) beta beta ltac:(lra) ltac:(lra) L).
        assert (P : 0 < interpolation beta b_c b_u s_c s_u (1 / v_c) (1 / nvega x s_u) (fmax (Fin rf) (minimum_rational_cubic_control_parameter (1 / v_c) (1 / nvega x s_u) ((s_u - s_c) / (b_u - b_c)) false))).
        { destruct (Rlt_le_dec 0 s_c) as [SP|SP]; [lra|]. assert (Z : s_c = 0) by lra. destruct Hs0 as [N|N]; [lra|]. apply interp_pos; try lra. }
        repeat split; lra.
    - destruct (highest_guess erf_inv beta x (exp (x / 2)) s_u b_u HS SU0) as [G _]; try lra.
      { split; [|lra]. apply black_nonneg. lra. }
      split; [exact G|]. unfold highest_segment. rewrite fl_upper. cbn [sg_left sg_right]. repeat split; lra. }
  destruct (Req_dec x 0) as [Z|NZ].
  - (* at the money *)
    subst x. rewrite Rmult_0_r, Rabs_R0, sqrt_0.
    assert (B0 : normalised_black_call 0 0 = 0).
    { unfold normalised_black_call. destruct (Rltb_spec 0 0) as [N|_]; [lra|]. unfold normalised_black_call_otm, DENORMALIZATION_CUTOFF. rewrite Rmult_0_r. destruct (Rleb_spec 0 0) as [_|N]; [|lra].
      unfold normalised_intrinsic_call, normalised_intrinsic. rewrite Rmult_0_r. destruct (Rleb_spec 0 0) as [_|N]; [reflexivity|lra]. }
    assert (V0 : normalised_vega 0 0 = / sqrt (2 * PI)).
    { unfold normalised_vega, ONE_OVER_SQRT_TWO_PI. rewrite Rabs_R0. destruct (Rleb_spec 0 0) as [_|N]; [|lra]. rewrite Rmult_0_r, exp_0. ring. }
    rewrite B0. destruct (Rltb_spec beta 0) as [N|_]; [lra|]. rewrite V0.
    assert (VP : 0 < / sqrt (2 * PI)) by (apply Rinv_0_lt_compat, sqrt_2PI_pos).
    assert (EV : f64_eps < / sqrt (2 * PI)).
    { unfold f64_eps. apply Rinv_lt_contravar; [apply Rmult_lt_0_compat; [apply sqrt_2PI_pos|apply pow_lt; lra]|]. assert (sqrt (2 * PI) <= 4). { rewrite <- (sqrt_pow2 4) by lra. apply sqrt_le_1_alt. pose proof PI_4. lra. } assert (4 < 2 ^ 52) by lra. lra. }
    pose proof (exp_pos (0 / 2)). apply (UP 0 0 (/ sqrt (2 * PI))); try lra; try (now right); try (now left). rewrite Rabs_R0. lra.
  - assert (XN : x < 0) by lra. pose proof (centre x XN ltac:(lra)) as C. cbv zeta in C. destruct C as (SC & S2 & VE & VB & BC & BM & HL & LP).
    set (s_c := sqrt (Rabs (2 * x))) in *. set (b_c := normalised_black_call x s_c) in *. set (v_c := normalised_vega x s_c) in *.
    destruct (Rltb_spec beta b_c) as [L|L].
    + set (s_l := s_c - b_c / v_c) in *. set (b_l := normalised_black_call x s_l).
      assert (Q : 0 < b_c / v_c) by (apply Rdiv_lt_0_compat; lra).
      destruct (Rltb_spec beta b_l) as [L2|L2].
      * pose proof (lowest_guess erf_inv beta x s_l b_l HS XN LP ltac:(lra)) as G. split; [tauto|]. unfold lowest_segment in *. destruct (compute_f_lower_map_and_first_two_derivatives x s_l) as [[f fp] fpp]. cbn [sg_s sg_left sg_right] in *. split; [lra|]. split; [lra|]. intros _. split; [lra|]. intros N. now contradict N.
      * unfold lower_middle_segment. cbn [sg_s sg_left sg_right]. destruct (control_right_form b_l b_c s_l s_c (1 / normalised_vega x s_l) (1 / v_c) 0 false) as [rf ER]. rewrite ER. clear ER.
        rewrite (vega_exact x s_l LP HL). pose proof (nvega_pos x s_l) as VP. pose proof (nvega_le x s_l) as VL. pose proof (inv_vega _ (conj VP VL)) as V2. pose proof (inv_vega _ VB) as V1.
        assert (BL : 0 <= b_l) by (apply black_nonneg; lra).
        assert (DD : f64_min_pos <= (s_c - s_l) / (b_c - b_l)).
        { unfold s_l. replace (s_c - (s_c - b_c / v_c)) with (b_c * (1 / v_c)) by (field; lra). apply Rmult_le_reg_r with (b_c - b_l); [lra|]. unfold Rdiv at 1. rewrite (Rmult_assoc (b_c * _)), Rinv_l, Rmult_1_r by lra. nra. }
        pose proof (cubic_monotone b_l b_c s_l s_c (1 / nvega x s_l) (1 / v_c) rf false) as IM. cbv zeta in IM. specialize (IM ltac:(lra) ltac:(unfold s_l; lra) ltac:(lra) ltac:(lra) ltac:(now left) beta beta ltac:(lra) ltac:(lra) ltac:(lra)).
        repeat split; lra.
    + apply (UP s_c b_c v_c); try lra; try (now left); try (now right).
      left. assert (0 <= b_c / v_c) by (apply Rmult_le_pos; [lra|left; apply Rinv_0_lt_compat; lra]). lra.
Qed.
Print Assumptions first_guess.
Example first_guess_case : (exists e, erf_inv_spec e) /\ - 10 ^ 6 <= - / 10 <= 0 /\ 0 < / 2 < exp (- / 10 / 2).
Proof. split; [exact erf_inv_exists|]. split; [lra|]. split; [lra|]. pose proof (exp_ineq1 (- / 10 / 2) ltac:(lra)). lra. Qed.
