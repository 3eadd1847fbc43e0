(** The normalised Black function of implied_volatility.rs against the exact one,
    the Householder objectives, and the maps of the outer segments. *)
From Coq Require Import Reals Lra Lia Psatz Arith Bool.
From Coquelicot Require Import Coquelicot.
From Verif Require Import Res InterpModel StatModel SpecialFns DistModel DistGauss BsmModel BsmProofs IvModel IvMath IvExp IvCubic.
Open Scope R_scope.

(** ** Accuracy of the four regions *)
Lemma Rmax_error a b e : 0 <= b -> Rabs (a - b) <= e -> Rabs (Rmax a 0 - b) <= e.
Proof.
  intros Hb H. unfold Rmax. destruct (Rle_dec a 0); [|exact H]. eapply Rle_trans; [|exact H].
  rewrite Rabs_left1 by lra. rewrite Rabs_left1 by lra. lra.
Qed.
Lemma otm_accurate x s : x <= 0 -> 0 < s -> Rabs (normalised_black_call_otm x s - nblack x s) <= 2 / 10 ^ 14 * nblack x s.
Proof.
  intros Hx Hs. unfold normalised_black_call_otm, DENORMALIZATION_CUTOFF. rewrite Rmult_0_r. destruct (Rleb_spec s 0) as [N|_]; [lra|].
  pose proof (nblack_pos x s Hs) as BP. assert (Ht : / 2 * s = s / 2) by field.
  set (cond := Rltb x _ && Rltb _ _). destruct cond eqn:C.
  - (* region 1 *)
    unfold cond, ASYMPTOTIC_EXPANSION_ACCURACY_THRESHOLD, SMALL_T_EXPANSION_OF_NORMALIZED_BLACK_THRESHOLD, SIXTEENTH_ROOT_DBL_EPSILON in C.
    apply andb_prop in C. destruct C as [C1 C2]. destruct (Rltb_spec x (s * -10)) as [L1|]; [|discriminate].
    match type of C2 with Rltb ?a ?b = true => destruct (Rltb_spec a b) as [L2|]; [|discriminate] end. clear C1 C2.
    unfold asymptotic_expansion_of_normalized_black_call. rewrite Ht. set (h := x / s) in *. set (t := s / 2) in *.
    assert (Eh : x = h * s) by (unfold h; field; lra). assert (Et : s = 2 * t) by (unfold t; field).
    assert (U1 : 978 / 100 <= - (h + t)).
    { apply Rmult_le_reg_r with s; [exact Hs|]. replace (- (h + t) * s) with (- (/ 2 * s * s + x)) by (rewrite Eh, Et; field). lra. }
    assert (Tp : 0 < t) by (unfold t; lra). apply Rmax_error; [lra|]. rewrite nblack_Y by lra. fold h t. unfold ONE_OVER_SQRT_TWO_PI.
    replace (h * h + t * t) with (h ^ 2 + t ^ 2) by ring. fold (pref h t). pose proof (pref_pos h t) as PP.
    rewrite Rmult_assoc. rewrite (asymptotic_mills (- (h + t)) (- (h - t))) by (try lra; field).
    rewrite <- Rmult_minus_distr_l, Rabs_mult, (Rabs_right (pref h t)) by lra.
    pose proof (asymptotic_error (- (h + t)) (- (h - t)) U1 ltac:(lra)) as E. rewrite !Ropp_involutive in E. nra.
  - clear C cond. destruct (Rltb_spec (/ 2 * s) SMALL_T_EXPANSION_OF_NORMALIZED_BLACK_THRESHOLD) as [L|L].
    + (* region 2 *)
      unfold SMALL_T_EXPANSION_OF_NORMALIZED_BLACK_THRESHOLD, SIXTEENTH_ROOT_DBL_EPSILON in L.
      unfold small_t_expansion_of_normalized_black_call. rewrite Ht in *. set (h := x / s) in *. set (t := s / 2) in *.
      assert (Hh : h <= 0) by (unfold h; apply Rmult_le_0_r; [exact Hx|left; apply Rinv_0_lt_compat, Hs]). assert (Tp : 0 < t) by (unfold t; lra).
      replace (1 + h * (/ 2 * SQRT_TWO_PI) * erfcx (- (/ sqrt 2) * h)) with (1 + h * Y h).
      2:{ rewrite erfcx_Y. unfold SQRT_TWO_PI. pose proof sqrt_2PI_pos. field. apply Rgt_not_eq. assumption. }
      apply Rmax_error; [lra|]. rewrite nblack_Y by lra. fold h t. unfold ONE_OVER_SQRT_TWO_PI.
      replace (h * h + t * t) with (h ^ 2 + t ^ 2) by ring. fold (pref h t). pose proof (pref_pos h t) as PP.
      rewrite <- Rmult_minus_distr_l, Rabs_mult, (Rabs_right (pref h t)) by lra.
      assert (T2 : t <= 21023 / 100000) by lra. pose proof (small_t_error h t Hh Tp T2) as E. unfold Dd in E. cbn [Yd pow] in E. rewrite Rmult_1_l in E.
      rewrite Rabs_left1 by lra. nra.
    + match goal with |- context [if ?c then _ else _] => destruct c end.
      * (* region 3 *)
        unfold normalized_black_call_using_norm_cdf. rewrite Ht. replace (/ 2 * x) with (x / 2) by field.
        replace (ncdf (x / s - s / 2) / exp (x / 2)) with (ncdf (x / s - s / 2) * exp (- x / 2)).
        2:{ replace (- x / 2) with (- (x / 2)) by field. rewrite exp_Ropp. reflexivity. }
        fold (nblack x s). rewrite Rmax_left by lra. rewrite Rminus_diag_eq by reflexivity. rewrite Rabs_R0. lra.
      * (* region 4 *)
        unfold normalised_black_call_using_erfcx. rewrite Ht, !erfcx_Y. rewrite nblack_Y in * by lra. set (h := x / s) in *. set (t := s / 2) in *.
        replace (/ 2 * exp (- / 2 * (h * h + t * t)) * (2 / sqrt (2 * PI) * Y (h + t) - 2 / sqrt (2 * PI) * Y (h - t))) with (pref h t * (Y (h + t) - Y (h - t))).
        2:{ unfold pref. replace (h * h + t * t) with (h ^ 2 + t ^ 2) by ring. pose proof sqrt_2PI_pos. field. apply Rgt_not_eq; assumption. }
        rewrite Rmax_left by lra. rewrite Rminus_diag_eq by reflexivity. rewrite Rabs_R0. lra.
Qed.
(** away from the two expansions the code is exact *)
Lemma otm_exact x s : x <= 0 -> 0 < s -> SMALL_T_EXPANSION_OF_NORMALIZED_BLACK_THRESHOLD <= / 2 * s -> - (978 / 100) * s <= x + / 2 * s * s ->
  normalised_black_call_otm x s = nblack x s.
Proof.
  intros Hx Hs H1 H2. unfold normalised_black_call_otm, DENORMALIZATION_CUTOFF. rewrite Rmult_0_r. destruct (Rleb_spec s 0) as [N|_]; [lra|].
  pose proof (nblack_pos x s Hs) as BP. assert (Ht : / 2 * s = s / 2) by field.
  assert (C : Rltb x (s * ASYMPTOTIC_EXPANSION_ACCURACY_THRESHOLD) && Rltb (/ 2 * s * s + x) (s * (SMALL_T_EXPANSION_OF_NORMALIZED_BLACK_THRESHOLD + ASYMPTOTIC_EXPANSION_ACCURACY_THRESHOLD)) = false).
  { apply andb_false_intro2. match goal with |- Rltb ?a ?b = false => destruct (Rltb_spec a b) as [L|]; [exfalso|reflexivity] end.
    unfold SMALL_T_EXPANSION_OF_NORMALIZED_BLACK_THRESHOLD, SIXTEENTH_ROOT_DBL_EPSILON, ASYMPTOTIC_EXPANSION_ACCURACY_THRESHOLD in L. lra. }
  rewrite C. destruct (Rltb_spec (/ 2 * s) SMALL_T_EXPANSION_OF_NORMALIZED_BLACK_THRESHOLD) as [L|_]; [lra|].
  match goal with |- context [if ?c then _ else _] => destruct c end.
  - unfold normalized_black_call_using_norm_cdf. rewrite Ht. replace (/ 2 * x) with (x / 2) by field.
    replace (ncdf (x / s - s / 2) / exp (x / 2)) with (ncdf (x / s - s / 2) * exp (- x / 2)).
    2:{ replace (- x / 2) with (- (x / 2)) by field. rewrite exp_Ropp. reflexivity. }
    fold (nblack x s). now rewrite Rmax_left by lra.
  - unfold normalised_black_call_using_erfcx. rewrite Ht, !erfcx_Y. rewrite nblack_Y in * by lra. set (h := x / s) in *. set (t := s / 2) in *.
    replace (/ 2 * exp (- / 2 * (h * h + t * t)) * (2 / sqrt (2 * PI) * Y (h + t) - 2 / sqrt (2 * PI) * Y (h - t))) with (pref h t * (Y (h + t) - Y (h - t))).
    2:{ unfold pref. replace (h * h + t * t) with (h ^ 2 + t ^ 2) by ring. pose proof sqrt_2PI_pos. field. apply Rgt_not_eq; assumption. }
    now rewrite Rmax_left by lra.
Qed.
Lemma intrinsic_call_accurate x : 0 < x -> let e := exp (x / 2) - exp (- x / 2) in 0 < e /\ Rabs (normalised_intrinsic_call x - e) <= / 10 ^ 18 * e.
Proof.
  intros Hx e. assert (Ep : 0 < e) by (unfold e; assert (exp (- x / 2) < exp (x / 2)) by (apply exp_increasing; lra); lra). split; [exact Ep|].
  unfold normalised_intrinsic_call, normalised_intrinsic. rewrite Rmult_1_l. destruct (Rleb_spec x 0) as [N|_]; [lra|].
  destruct (Rltb_spec 1 0) as [N|_]; [lra|].
  destruct (Rltb_spec (x * x) (98 * FOURTH_ROOT_DBL_EPSILON)) as [L|L].
  - pose proof (intrinsic_taylor x Hx L) as T. cbv zeta in T. fold e in T. apply Rmax_error; [lra|]. rewrite Rabs_left1 by lra. lra.
  - replace (/ 2 * x) with (x / 2) by field. replace (1 / exp (x / 2)) with (exp (- x / 2)).
    2:{ replace (- x / 2) with (- (x / 2)) by field. rewrite exp_Ropp. field. apply Rgt_not_eq, exp_pos. }
    fold e. rewrite Rmax_left by lra. rewrite Rminus_diag_eq by reflexivity. rewrite Rabs_R0. lra.
Qed.

(** The code's normalised Black function has a relative truncation error below
    2e-14 for every moneyness and every positive total volatility. *)
Theorem normalised_black_accurate : forall x s, 0 < s ->
  0 < nblack x s /\ Rabs (normalised_black_call x s - nblack x s) <= 2 / 10 ^ 14 * nblack x s.
Proof.
  intros x s Hs. split; [now apply nblack_pos|]. unfold normalised_black_call. destruct (Rltb_spec 0 x) as [P|P].
  - rewrite (nblack_sym x s Hs). destruct (intrinsic_call_accurate x P) as [EP E]. pose proof (otm_accurate (- x) s ltac:(lra) Hs) as O.
    set (e := exp (x / 2) - exp (- x / 2)) in *. set (a := normalised_intrinsic_call x) in *. set (b := normalised_black_call_otm (- x) s) in *. set (c := nblack (- x) s) in *.
    replace (a + b - (e + c)) with ((a - e) + (b - c)) by ring. eapply Rle_trans; [apply Rabs_triang|]. lra.
  - apply otm_accurate; lra.
Qed.
Print Assumptions normalised_black_accurate.
(** the four regions are all reached *)
Example normalised_black_accurate_cases :
  normalised_black_call (-1) (/ 20) = asymptotic_expansion_of_normalized_black_call (-1 / / 20) (/ 2 * / 20) /\
  normalised_black_call (- / 10) (/ 5) = small_t_expansion_of_normalized_black_call (- / 10 / / 5) (/ 2 * / 5) /\
  normalised_black_call (-1) 3 = normalized_black_call_using_norm_cdf (-1) 3 /\
  normalised_black_call (-1) 1 = normalised_black_call_using_erfcx (-1 / 1) (/ 2 * 1).
Proof.
  unfold normalised_black_call, normalised_black_call_otm, DENORMALIZATION_CUTOFF, ASYMPTOTIC_EXPANSION_ACCURACY_THRESHOLD, SMALL_T_EXPANSION_OF_NORMALIZED_BLACK_THRESHOLD, SIXTEENTH_ROOT_DBL_EPSILON.
  rewrite !Rmult_0_r. repeat split.
  all: repeat match goal with |- context [if ?c then _ else _] =>
    match c with
    | Rltb ?a ?b && _ => destruct (Rltb_spec a b); cbn [andb]; try (exfalso; lra)
    | Rltb ?a ?b => destruct (Rltb_spec a b); try (exfalso; lra)
    | Rleb ?a ?b => destruct (Rleb_spec a b); try (exfalso; lra)
    end end; try reflexivity.
Qed.

(** The two expansions are the ones the comments announce: region 2 is the Taylor
    polynomial of degree 14 in [t] of [Y (h + t) - Y (h - t)], region 1 the
    difference of the asymptotic series of [Y] cut after 18 terms, for every
    argument. *)
Theorem expansions_are_series : 
  (forall h t, small_t_expansion_sum t (1 + h * (ncdf h / npdf h)) (t * t) (h * h) =
    sum_f_R0 (fun k => t ^ k / INR (fact k) * Derive_n (fun t => ncdf (h + t) / npdf (h + t) - ncdf (h - t) / npdf (h - t)) k 0) 14) /\
  (forall h t, h + t < 0 -> h - t < 0 ->
    let r := (h + t) * (h - t) in
    t / r * asymptotic_expansion_sum (t / h * (t / h)) (h / r * (h / r)) =
    sum_f_R0 (fun k => (-1) ^ k * dfact k * (/ - (h + t)) ^ (2 * k + 1)) 17 - sum_f_R0 (fun k => (-1) ^ k * dfact k * (/ - (h - t)) ^ (2 * k + 1)) 17) /\
  (forall k, dfact (S k) = INR (2 * k + 1) * dfact k) /\ dfact 0 = 1.
Proof.
  repeat split.
  - intros h t. fold (Y h). rewrite small_t_sum. apply sum_eq. intros k _. f_equal. rewrite <- (chain_derive_n (Dd h) (Dd_derive h)). apply Derive_n_ext.
    intros u. unfold Dd. cbn [Yd pow]. rewrite Rmult_1_l. reflexivity.
  - intros h t H1 H2 r. rewrite <- !mills_series_sum. apply asymptotic_mills; try lra; field.
Qed.
Print Assumptions expansions_are_series.
Example expansions_case : 10 < 11 /\ -11 + / 10 < 0 /\ -11 - / 10 < 0. Proof. lra. Qed.

(** ** Vega *)
Lemma vega_exact x s : 0 < s -> Rabs x * SQRT_DBL_MIN < s -> normalised_vega x s = nvega x s.
Proof.
  intros Hs H. unfold normalised_vega, nvega, ONE_OVER_SQRT_TWO_PI. destruct (Rleb_spec (Rabs x) 0) as [Z|Z].
  - assert (x = 0) as ->. { destruct (Req_dec x 0) as [E|E]; [exact E|]. pose proof (Rabs_pos_lt x E). lra. }
    f_equal. f_equal. unfold Rdiv. rewrite Rmult_0_l. field.
  - destruct (Rleb_spec s 0) as [N|_]; [lra|]. destruct (Rleb_spec s (Rabs x * SQRT_DBL_MIN)) as [N|_]; [lra|]. cbn [orb].
    f_equal. f_equal. replace (/ 2 * s) with (s / 2) by field. reflexivity.
Qed.
