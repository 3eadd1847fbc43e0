(** The decimal constants of implied_volatility.rs, and the guard of the control
    parameter. *)
From Coq Require Import Reals Lra Lia Psatz Arith Bool Machin.
From Coquelicot Require Import Coquelicot.
From Verif Require Import Res InterpModel StatModel SpecialFns BsmProofs IvModel IvExp IvCubic.
Open Scope R_scope.

Lemma pi_digits : 31415926535897932 / 10 ^ 16 <= PI <= 31415926535897933 / 10 ^ 16.
Proof.
  pose proof (PI_2_3_7_ineq 9) as [L U]. cbn [mult plus sum_f_R0] in L, U. unfold tg_alt, PI_2_3_7_tg, Ratan_seq in L, U.
  cbn -[IZR Rplus Rmult Rinv Rdiv Rminus pow] in L, U. 
  rewrite ?S_INR in L, U. simpl INR in L, U. split; lra.
Qed.
Lemma sqrt_between a b x : 0 <= a -> 0 <= b -> a * a <= x <= b * b -> a <= sqrt x <= b.
Proof. intros A B [L U]. split; [rewrite <- (sqrt_square a A)|rewrite <- (sqrt_square b B)]; apply sqrt_le_1_alt; assumption. Qed.
(** Each decimal of lines 37-46 is within one unit in the sixteenth digit of the
    number the model uses, and the two root constants are the roots of the
    machine epsilon. *)
Theorem constants_accurate :
  Rabs (5773502691896257 / 10 ^ 16 - SQRT_ONE_OVER_THREE) <= / 10 ^ 15 /\
  Rabs (17320508075688772 / 10 ^ 16 - SQRT_THREE) <= / 10 ^ 15 /\
  Rabs (12091995761561452 / 10 ^ 16 - TWO_PI_OVER_SQRT_TWENTY_SEVEN) <= / 10 ^ 15 /\
  Rabs (12533141373155003 / 10 ^ 16 - SQRT_PI_OVER_TWO) <= / 10 ^ 15 /\
  Rabs (3989422804014327 / 10 ^ 16 - ONE_OVER_SQRT_TWO_PI) <= / 10 ^ 15 /\
  Rabs (25066282746310007 / 10 ^ 16 - SQRT_TWO_PI) <= / 10 ^ 15 /\
  Rabs (14916681462400413 / 10 ^ 170 - SQRT_DBL_MIN) <= / 10 ^ 15 * SQRT_DBL_MIN /\
  Rabs (13407807929942596 * 10 ^ 138 - SQRT_DBL_MAX) <= / 10 ^ 15 * SQRT_DBL_MAX /\
  FOURTH_ROOT_DBL_EPSILON ^ 4 = f64_eps /\
  Rabs (SIXTEENTH_ROOT_DBL_EPSILON ^ 16 / f64_eps - 1) <= / 10 ^ 14 /\
  (MINIMUM_RATIONAL_CUBIC_CONTROL_PARAMETER_VALUE) ^ 2 = f64_eps.
Proof.
  pose proof pi_digits as [P1 P2].
  assert (S3 : 17320508075688772 / 10 ^ 16 <= sqrt 3 <= 17320508075688773 / 10 ^ 16) by (apply sqrt_between; lra).
  assert (S2P : 25066282746310004 / 10 ^ 16 <= sqrt (2 * PI) <= 25066282746310006 / 10 ^ 16) by (apply sqrt_between; lra).
  repeat split.
  - unfold SQRT_ONE_OVER_THREE. assert (5773502691896257 / 10 ^ 16 <= sqrt (1 / 3) <= 5773502691896258 / 10 ^ 16) by (apply sqrt_between; lra). apply Rabs_le. lra.
  - unfold SQRT_THREE. apply Rabs_le. lra.
  - unfold TWO_PI_OVER_SQRT_TWENTY_SEVEN. assert (S27 : 51961524227066318 / 10 ^ 16 <= sqrt 27 <= 51961524227066319 / 10 ^ 16) by (apply sqrt_between; lra).
    assert (E : 2 * PI / sqrt 27 * sqrt 27 = 2 * PI) by (field; lra). set (c := 2 * PI / sqrt 27) in *. clearbody c. apply Rabs_le. split; nra.
  - unfold SQRT_PI_OVER_TWO. assert (12533141373155002 / 10 ^ 16 <= sqrt (PI / 2) <= 12533141373155003 / 10 ^ 16) by (apply sqrt_between; lra). apply Rabs_le. lra.
  - unfold ONE_OVER_SQRT_TWO_PI. assert (E : / sqrt (2 * PI) * sqrt (2 * PI) = 1) by (apply Rinv_l; lra). set (c := / sqrt (2 * PI)) in *. clearbody c. apply Rabs_le. split; nra.
  - unfold SQRT_TWO_PI. apply Rabs_le. lra.
  - unfold SQRT_DBL_MIN. apply Rabs_le. lra.
  - unfold SQRT_DBL_MAX, f64_max.
    assert (B : 13407807929942596 * 10 ^ 138 <= sqrt (2 ^ 1024 - 2 ^ 971) <= 13407807929942598 * 10 ^ 138) by (apply sqrt_between; lra). apply Rabs_le. lra.
  - unfold FOURTH_ROOT_DBL_EPSILON, f64_eps. lra.
  - unfold SIXTEENTH_ROOT_DBL_EPSILON, f64_eps. apply Rabs_le. lra.
  - unfold MINIMUM_RATIONAL_CUBIC_CONTROL_PARAMETER_VALUE, f64_eps. lra.
Qed.
Print Assumptions constants_accurate.

(** The guard of the convex branch tests "the left gap is not zero or the right
    gap is zero"; when the right slope equals the secant it divides by zero, the
    parameter is infinite, and the interpolant is the chord: the slope asked for
    on the left is lost, although smoothness was preferred over shape. *)
Theorem control_guard_refuted : forall x_l x_r y_l d_l d_r dd, x_l < x_r -> 0 <= d_l -> d_l < d_r -> f64_min_pos <= d_r - d_l ->
  let y_r := y_l + d_r * (x_r - x_l) in
  let f := fun x => interpolation x x_l x_r y_l y_r d_l d_r (convex_control_right x_l x_r y_l y_r d_l d_r dd false) in
  Derive f x_l = d_r /\ ~ is_derive f x_l d_l.
Proof.
  intros x_l x_r y_l d_l d_r dd Lx Hl Hd Hm y_r f. assert (E : (y_r - y_l) / (x_r - x_l) = d_r) by (unfold y_r; field; lra).
  assert (C : convex_control_right x_l x_r y_l y_r d_l d_r dd false = PosInf).
  { unfold convex_control_right. rewrite E. unfold minimum_rational_cubic_control_parameter. cbv zeta.
    destruct (Rleb_spec d_l d_r) as [_|N]; [|lra]. destruct (Rleb_spec d_r d_r) as [_|N]; [|lra]. cbn [andb negb orb]. rewrite Bool.andb_false_r. cbn [andb].
    unfold is_zero at 2. rewrite Rabs_right by lra. destruct (Rltb_spec (d_r - d_l) f64_min_pos) as [N|_]; [lra|]. cbn [negb orb].
    assert (F1 : fabsdiv (d_r - d_l) (d_r - d_r) = PosInf). { unfold fabsdiv. replace (d_r - d_r) with 0 by ring. destruct (Reqb_spec 0 0) as [_|N]; [|lra]. destruct (Reqb_spec (d_r - d_l) 0) as [N|_]; [lra|reflexivity]. }
    assert (F2 : fabsdiv (d_r - d_l) (d_r - d_l) = Fin 1). { unfold fabsdiv. destruct (Reqb_spec (d_r - d_l) 0) as [N|_]; [lra|]. f_equal. replace ((d_r - d_l) / (d_r - d_l)) with 1 by (field; lra). apply Rabs_R1. }
    rewrite F1, F2. cbn [fmax]. repeat match goal with |- context [if ?c then _ else _] => destruct c end; reflexivity. }
  assert (D : is_derive f x_l d_r).
  { apply (isd_ext (fun x => y_r * ((x - x_l) / (x_r - x_l)) + y_l * (1 - (x - x_l) / (x_r - x_l)))).
    - intros x. unfold f. rewrite C. symmetry. apply interpolation_linear; [exact Lx|reflexivity].
    - auto_derive; [lra|]. match goal with |- ?u = ?v => change (@eq R u v) end. unfold y_r. field. lra. }
  split; [now apply is_derive_unique|]. intros D'. apply is_derive_unique in D. apply is_derive_unique in D'. lra.
Qed.
Print Assumptions control_guard_refuted.
Example control_guard_case : 0 < 1 /\ 0 <= 1 /\ 1 < 2 /\ f64_min_pos <= 2 - 1.
Proof. repeat split; try lra. unfold f64_min_pos. assert (1 <= 2 ^ 1022) by (apply pow_R1_Rle; lra). assert (/ 2 ^ 1022 <= / 1) by (apply Rinv_le_contravar; lra). lra. Qed.
