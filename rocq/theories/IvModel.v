(** Model of crates/RustQuant_instruments/src/options/implied_volatility.rs
    ("Let's be rational") and of [BlackScholesMerton::implied_volatility].

    Simplifications:
    - [f64] is [R]. A float that may be infinite or not a number is an [fval];
      [f64::max] ignores a NaN argument ([fmax]);
    - the decimal constants of lines 39-46 are the numbers they approximate
      ([constants_accurate] of IvConst.v bounds the difference); the thresholds
      are the decimals of the code;
    - [Gaussian::default().cdf], [.pdf] are [ncdf], [npdf] of SpecialFns.v and
      [.inv_cdf] is [gaussian_inv_cdf] of DistModel.v with the external
      inverse error function as a parameter; [erfcx] of the errorfunctions
      crate is its definition [exp (z^2) * erfc z];
    - divisions whose divisor the theorems prove non-zero are real divisions.
      The divisions that can really meet a zero (the control parameter, the
      Householder factor, the reciprocal of a logarithm) are tracked. *)
From Coq Require Import Reals List Bool Arith.
From Verif Require Import Res InterpModel StatModel SpecialFns DistModel BsmModel PayoffModel.
Import ListNotations.
Open Scope R_scope.

(** an IEEE result *)
Inductive fval := Fin (x : R) | PosInf | NegInf | NaN.

(** [f64::max] *)
Definition fmax (a b : fval) : fval :=
  match a, b with
  | NaN, v => v
  | v, NaN => v
  | PosInf, _ | _, PosInf => PosInf
  | NegInf, v => v
  | v, NegInf => v
  | Fin x, Fin y => Fin (Rmax x y)
  end.
(** [(a / b).abs()] *)
Definition fabsdiv (a b : R) : fval :=
  if Reqb b 0 then (if Reqb a 0 then NaN else PosInf) else Fin (Rabs (a / b)).

(** ** Constants *)
(** [f64::EPSILON], [f64::MIN_POSITIVE], [f64::MAX] *)
Definition f64_eps : R := / 2 ^ 52.
Definition f64_min_pos : R := / 2 ^ 1022.
Definition f64_max : R := 2 ^ 1024 - 2 ^ 971.
(** 37 *)
Definition SIXTEENTH_ROOT_DBL_EPSILON : R := 10511205190671433 / 10 ^ 17.
(** 38 *)
Definition FOURTH_ROOT_DBL_EPSILON : R := 1220703125 / 10 ^ 13.
(** 39-44 *)
Definition SQRT_ONE_OVER_THREE : R := sqrt (1 / 3).
Definition SQRT_THREE : R := sqrt 3.
Definition TWO_PI_OVER_SQRT_TWENTY_SEVEN : R := 2 * PI / sqrt 27.
Definition SQRT_PI_OVER_TWO : R := sqrt (PI / 2).
Definition ONE_OVER_SQRT_TWO_PI : R := / sqrt (2 * PI).
Definition SQRT_TWO_PI : R := sqrt (2 * PI).
(** 45-46: the square roots of [f64::MIN_POSITIVE] and [f64::MAX] *)
Definition SQRT_DBL_MIN : R := / 2 ^ 511.
Definition SQRT_DBL_MAX : R := sqrt f64_max.
(** 50-54 *)
Definition DENORMALIZATION_CUTOFF : R := 0.
Definition IMPLIED_VOLATILITY_MAXIMUM_ITERATIONS : nat := 2.
Definition ASYMPTOTIC_EXPANSION_ACCURACY_THRESHOLD : R := -10.
Definition SMALL_T_EXPANSION_OF_NORMALIZED_BLACK_THRESHOLD : R := 2 * SIXTEENTH_ROOT_DBL_EPSILON.
(** 58-60; 1.490_116_119_384_765_6e-8 is 2^-26 *)
Definition MINIMUM_RATIONAL_CUBIC_CONTROL_PARAMETER_VALUE : R := / 2 ^ 26.
Definition MAXIMUM_RATIONAL_CUBIC_CONTROL_PARAMETER_VALUE : R := 2 / (f64_eps * f64_eps).

(** ** Inlined functions *)
(** 129-131 [is_below_horizon] *)
Definition is_below_horizon (x : R) : bool := Rltb (Rabs x) DENORMALIZATION_CUTOFF.
(** 134-136 [is_zero] *)
Definition is_zero (x : R) : bool := Rltb (Rabs x) f64_min_pos.
(** 139-141 [inverse_f_upper_map] *)
Definition inverse_f_upper_map (erf_inv : R -> R) (f : R) : R := - 2 * gaussian_inv_cdf erf_inv 0 1 f.
(** 144-146 [newton * householder_factor(newton, halley, hh3)], the only way the
    factor is used: the divisor 1 + ... is +0.0 when it vanishes *)
Definition householder_step (newton halley hh3 : R) : fval :=
  let num := 1 + / 2 * halley * newton in
  let den := 1 + newton * (halley + hh3 * newton / 6) in
  if Reqb den 0 then
    if Rltb 0 (newton * num) then PosInf else if Rltb (newton * num) 0 then NegInf else NaN
  else Fin (newton * (num / den)).

(** 150-172 [small_t_expansion_sum] *)
Definition small_t_expansion_sum (t a w h2 : R) : R :=
  2 * t *
    (a +
      w * ((-1 + 3*a + a*h2)/6 +
      w * ((-7 + 15*a + h2*(-1 + 10*a + a*h2))/120 +
      w * ((-57 + 105*a + h2*(-18 + 105*a + h2*(-1 + 21*a + a*h2)))/5040 +
      w * ((-561 + 945*a + h2*(-285 + 1260*a + h2*(-33 + 378*a + h2*(-1 + 36*a + a*h2))))/362880 +
      w * ((-6555 + 10395*a +
          h2*(-4680 + 17325*a +
            h2*(-840 + 6930*a +
              h2*(-52 + 990*a +
                h2*(-1 + 55*a + a*h2))))) / 39916800 +
          ((-89055 + 135135*a +
            h2*(-82845 + 270270*a +
              h2*(-20370 + 135135*a +
                h2*(-1926 + 25740*a +
                  h2*(-75 + 2145*a +
                    h2*(-1 + 78*a + a*h2)))))) * w) / 6227020800)))))).

(** 176-218 [asymptotic_expansion_sum] *)
Definition asymptotic_expansion_sum (e q : R) : R :=
    2 + q * (-6- 2 * e + 3 *
        q * (10+ e*(20+2*e) + 5 *
        q * (-14+ e * (-70+ e * (-42- 2 * e))+ 7 *
        q * (18+ e*(168+ e*(252+ e*(72+2*e)))+9 *
        q * (- 22+ e*(-330+ e*(-924+ e*(-660+ e*(-110- 2*e))))+11*
        q * (26+ e*(572+ e*(2574+ e*(3432+ e*(1430+ e*(156+2*e)))))+13*
        q * (-30+ e*(-910+ e*(-6006+ e*(-12870+ e*(-10010+ e*(- 2730+ e*(- 210- 2*e))))))+15*
        q * (34+ e*(1360+ e*(12376+ e*(38896+ e*(48620+ e*(24752+ e*(4760+ e*(272+2*e)))))))+17*
        q * (-38+ e*(-1938+ e*(- 23256+ e*(-100776+ e*(-184756+ e*(-151164+ e*(-54264+ e*(-7752+ e*(-342- 2*e))))))))+19*
        q * (42+ e*(2660+ e*(40698+ e*(232560+ e*(587860+ e*(705432+ e*(406980+ e*(108528+ e*(11970+ e*(420+2*e)))))))))+21*
        q * (-46+ e*(-3542+ e*(-67298+ e*(-490314+ e*(-1634380+ e*(- 2704156+ e*(- 2288132+ e*(-980628+ e*(- 201894+ e*(-17710+ e*(-506- 2*e))))))))))+23*
        q * (50+ e*(4600+ e*(106260+ e*(961400+ e*(4085950+ e*(8914800+ e*(10400600+ e*(6537520+ e*(2163150+ e*(354200+ e*(25300+ e*(600+2*e)))))))))))+25*
        q *
      (-54+ e*(-5850+ e*(-161460+ e*(-1776060+ e*(-9373650+ e*(- 26075790+ e*(-40116600+ e*(-34767720+ e*(-16872570+ e*(-4440150+ e*(-592020+ e*(-35100+ e*(-702- 2*e))))))))))))+27*
        q *
      (58+ e*(7308+ e*(237510+ e*(3121560+ e*(20030010+ e*(69194580+ e*(135727830+ e*(155117520+ e*(103791870+ e*(40060020+ e*(8584290+ e*(950040+ e*(47502+ e*(812+2*e)))))))))))))+29*
        q *
      (-62+ e*(-8990+ e*(-339822+ e*(-5259150+ e*(-40320150+ e*(-169344630+ e*(-412506150+ e*(-601080390+ e*(-530365050+ e*(- 282241050+ e*(-88704330+ e*(-15777450+ e*(-1472562+ e*(-62930+ e*(-930- 2*e))))))))))))))+31*
        q *
      (66+ e*(10912+ e*(474672+ e*(8544096+ e*(77134200+ e*(387073440+ e*(1146332880+ e*(2074316640+ e*(2333606220+ e*(1637618400+ e*(709634640+ e*(185122080+ e*(27768312+ e*(2215136+ e*(81840+ e*(1056+2*e
      ))))))))))))))) + 33*( -70+ e*( -13090+ e*( -649264+ e*( -13449040+ e*( -141214920+ e*( -834451800+ e*( - 2952675600+ e*( -6495886320+ e*(
      -9075135300+ e*( -8119857900+ e*( -4639918800+ e*( -1668903600+ e*( -367158792+ e*( -47071640+ e*( -3246320+ e*( -104720+ e*( -1190- 2*e
      ))))))))))))))))) * q )))))))))))))))).

(** ** Rational cubic interpolation *)
(** 224-251 *)
Definition rational_cubic_control_parameter_to_fit_second_derivative_at_left_side (x_l x_r y_l y_r d_l d_r second_derivative_l : R) : R :=
  let h := x_r - x_l in
  let numerator := / 2 * h * second_derivative_l + (d_r - d_l) in
  let denominator := (y_r - y_l) / h - d_l in
  if is_zero numerator then 0
  else if is_zero denominator then
    if Rltb 0 numerator then MAXIMUM_RATIONAL_CUBIC_CONTROL_PARAMETER_VALUE
    else MINIMUM_RATIONAL_CUBIC_CONTROL_PARAMETER_VALUE
  else numerator / denominator.
(** 253-299 [minimum_rational_cubic_control_parameter] *)
Definition minimum_rational_cubic_control_parameter (d_l d_r s : R) (prefer_shape_preservation_over_smoothness : bool) : fval :=
  let monotonic := Rleb 0 (d_l * s) && Rleb 0 (d_r * s) in
  let convex := Rleb d_l s && Rleb s d_r in
  let concave := Rleb s d_l && Rleb d_r s in
  if negb monotonic && negb convex && negb concave then Fin MINIMUM_RATIONAL_CUBIC_CONTROL_PARAMETER_VALUE
  else
    let d_r_m_d_l := d_r - d_l in
    let d_r_m_s := d_r - s in
    let s_m_d_l := s - d_l in
    let r1 :=
      if monotonic then
        if negb (is_zero s) then Fin ((d_r + d_l) / s)
        else if prefer_shape_preservation_over_smoothness then Fin MAXIMUM_RATIONAL_CUBIC_CONTROL_PARAMETER_VALUE
        else Fin (- f64_max)
      else Fin (- f64_max) in
    let r2 :=
      if convex || concave then
        if negb (is_zero s_m_d_l) || is_zero d_r_m_s then
          fmax (fabsdiv d_r_m_d_l d_r_m_s) (fabsdiv d_r_m_d_l s_m_d_l)
        else if prefer_shape_preservation_over_smoothness then Fin MAXIMUM_RATIONAL_CUBIC_CONTROL_PARAMETER_VALUE
        else Fin (- f64_max)
      else if monotonic && prefer_shape_preservation_over_smoothness then Fin MAXIMUM_RATIONAL_CUBIC_CONTROL_PARAMETER_VALUE
      else Fin (- f64_max) in
    fmax (Fin MINIMUM_RATIONAL_CUBIC_CONTROL_PARAMETER_VALUE) (fmax r1 r2).
(** 301-324 *)
Definition rational_cubic_control_parameter_to_fit_second_derivative_at_right_side (x_l x_r y_l y_r d_l d_r second_derivative_r : R) : R :=
  let h := x_r - x_l in
  let numerator := / 2 * h * second_derivative_r + (d_r - d_l) in
  let denominator := d_r - (y_r - y_l) / h in
  if is_zero numerator then 0
  else if is_zero denominator then MAXIMUM_RATIONAL_CUBIC_CONTROL_PARAMETER_VALUE
  else numerator / denominator.
(** [r < MAXIMUM_RATIONAL_CUBIC_CONTROL_PARAMETER_VALUE] for an IEEE [r]; the
    finite value when it holds *)
Definition below_max (r : fval) : option R :=
  match r with
  | Fin r => if Rltb r MAXIMUM_RATIONAL_CUBIC_CONTROL_PARAMETER_VALUE then Some r else None
  | _ => None
  end.
(** 326-358 [interpolation]; [r] is never minus infinity *)
Definition interpolation (x x_l x_r y_l y_r d_l d_r : R) (r : fval) : R :=
  let h := x_r - x_l in
  if Rleb (Rabs h) 0 then / 2 * (y_l + y_r)
  else
    let t := (x - x_l) / h in
    match below_max r with
    | Some r =>
      let omt := 1 - t in
      let t2 := t * t in
      let omt2 := omt * omt in
      (y_r * t2 * t + (r * y_r - h * d_r) * t2 * omt + (r * y_l + h * d_l) * t * omt2 + y_l * omt2 * omt)
      / (1 + (r - 3) * t * omt)
    | None => y_r * t + y_l * (1 - t)
    end.
(** 360-388 *)
Definition convex_control_left (x_l x_r y_l y_r d_l d_r second_derivative_l : R) (prefer : bool) : fval :=
  fmax (Fin (rational_cubic_control_parameter_to_fit_second_derivative_at_left_side x_l x_r y_l y_r d_l d_r second_derivative_l))
       (minimum_rational_cubic_control_parameter d_l d_r ((y_r - y_l) / (x_r - x_l)) prefer).
(** 390-418 *)
Definition convex_control_right (x_l x_r y_l y_r d_l d_r second_derivative_r : R) (prefer : bool) : fval :=
  fmax (Fin (rational_cubic_control_parameter_to_fit_second_derivative_at_right_side x_l x_r y_l y_r d_l d_r second_derivative_r))
       (minimum_rational_cubic_control_parameter d_l d_r ((y_r - y_l) / (x_r - x_l)) prefer).

(** ** The maps of the outer segments *)
(** 420-450 *)
Definition compute_f_lower_map_and_first_two_derivatives (x s : R) : R * R * R :=
  let ax := Rabs x in
  let z := SQRT_ONE_OVER_THREE * ax / s in
  let y := z * z in
  let s2 := s * s in
  let PHI := ncdf (- z) in
  let phi := npdf z in
  let fpp := PI / 6 * y / (s2 * s) * PHI
    * (8 * SQRT_THREE * s * ax + (3 * s2 * (s2 - 8) - 8 * x * x) * PHI / phi)
    * exp (2 * y + / 4 * s2) in
  if is_below_horizon s then (0, 1, fpp)
  else
    let PHI2 := PHI * PHI in
    let fp := 2 * PI * y * PHI2 * exp (y + / 8 * s * s) in
    let f := if is_below_horizon x then 0 else TWO_PI_OVER_SQRT_TWENTY_SEVEN * ax * (PHI2 * PHI) in
    (f, fp, fpp).
(** 452-466 *)
Definition compute_f_upper_map_and_first_two_derivatives (x s : R) : R * R * R :=
  let f := ncdf (- / 2 * s) in
  if is_below_horizon x then (f, - / 2, 0)
  else
    let w := (x / s) ^ 2 in
    (f, - / 2 * exp (/ 2 * w), SQRT_PI_OVER_TWO * exp (w + / 8 * s * s) * (w / s)).
(** 468-477 [inverse_f_lower_map] *)
Definition inverse_f_lower_map (erf_inv : R -> R) (x f : R) : R :=
  if is_below_horizon f then 0
  else Rabs (x / (SQRT_THREE * gaussian_inv_cdf erf_inv 0 1 (Rpower (f / (TWO_PI_OVER_SQRT_TWENTY_SEVEN * Rabs x)) (1 / 3)))).

(** ** The normalised Black function *)
(** the crate errorfunctions *)
Definition erfcx (z : R) : R := exp (z ^ 2) * erfc z.
(** 479-494 *)
Definition normalized_black_call_using_norm_cdf (x s : R) : R :=
  let h := x / s in
  let t := / 2 * s in
  let b_max := exp (/ 2 * x) in
  Rmax (ncdf (h + t) * b_max - ncdf (h - t) / b_max) 0.
(** 496-528 *)
Definition asymptotic_expansion_of_normalized_black_call (h t : R) : R :=
  let e := (t / h) * (t / h) in
  let r := (h + t) * (h - t) in
  let q := (h / r) * (h / r) in
  Rmax (ONE_OVER_SQRT_TWO_PI * exp (- / 2 * (h * h + t * t)) * (t / r) * asymptotic_expansion_sum e q) 0.
(** 530-557 *)
Definition small_t_expansion_of_normalized_black_call (h t : R) : R :=
  let a := 1 + h * (/ 2 * SQRT_TWO_PI) * erfcx (- (/ sqrt 2) * h) in
  let w := t * t in
  let h2 := h * h in
  Rmax (ONE_OVER_SQRT_TWO_PI * exp (- / 2 * (h * h + t * t)) * small_t_expansion_sum t a w h2) 0.
(** 559-603 *)
Definition normalised_black_call_using_erfcx (h t : R) : R :=
  Rmax (/ 2 * exp (- / 2 * (h * h + t * t)) * (erfcx (- (/ sqrt 2) * (h + t)) - erfcx (- (/ sqrt 2) * (h - t)))) 0.
(** 605-635 [normalised_intrinsic] *)
Definition normalised_intrinsic (x q : R) : R :=
  if Rleb (q * x) 0 then 0
  else
    let x2 := x * x in
    if Rltb x2 (98 * FOURTH_ROOT_DBL_EPSILON) then
      let ret := x * (1 + x2 * (1 / 24 + x2 * (1 / 1920 + x2 * (1 / 322560 + 1 / 92897280 * x2)))) in
      Rmax (if Rltb q 0 then - ret else ret) 0
    else
      let b_max := exp (/ 2 * x) in
      let ret := b_max - 1 / b_max in
      Rmax (if Rltb q 0 then - ret else ret) 0.
(** 124-126 *)
Definition normalised_intrinsic_call (x : R) : R := normalised_intrinsic x 1.
(** 637-676 [normalised_black_call] for [x <= 0] *)
Definition normalised_black_call_otm (x s : R) : R :=
  let ax := Rabs x in
  if Rleb s (ax * DENORMALIZATION_CUTOFF) then normalised_intrinsic_call x
  else if Rltb x (s * ASYMPTOTIC_EXPANSION_ACCURACY_THRESHOLD)
       && Rltb (/ 2 * s * s + x) (s * (SMALL_T_EXPANSION_OF_NORMALIZED_BLACK_THRESHOLD + ASYMPTOTIC_EXPANSION_ACCURACY_THRESHOLD))
  then asymptotic_expansion_of_normalized_black_call (x / s) (/ 2 * s)
  else if Rltb (/ 2 * s) SMALL_T_EXPANSION_OF_NORMALIZED_BLACK_THRESHOLD
  then small_t_expansion_of_normalized_black_call (x / s) (/ 2 * s)
  else if Rltb (s * (85 / 100)) (x + / 2 * s * s)
  then normalized_black_call_using_norm_cdf x s
  else normalised_black_call_using_erfcx (x / s) (/ 2 * s).
(** 637-640: the recursive call has a negative argument *)
Definition normalised_black_call (x s : R) : R :=
  if Rltb 0 x then normalised_intrinsic_call x + normalised_black_call_otm (- x) s
  else normalised_black_call_otm x s.
(** 678-690 *)
Definition normalised_vega (x s : R) : R :=
  let ax := Rabs x in
  if Rleb ax 0 then ONE_OVER_SQRT_TWO_PI * exp (- / 8 * s * s)
  else if Rleb s 0 || Rleb s (ax * SQRT_DBL_MIN) then 0
  else ONE_OVER_SQRT_TWO_PI * exp (- / 2 * ((x / s) ^ 2 + (/ 2 * s) ^ 2)).

(** ** The three Householder objectives *)
(** a quotient in the step can only be undefined at [ln b = 0]; the step is then
    NaN (0 * infinity) *)
(** 829-845: lowest segment *)
Definition lower_step (x beta s_left s_right s b bp : R) : fval :=
  if Rleb b 0 || Rleb bp 0 then Fin (/ 2 * (s_left + s_right) - s)
  else
    let ln_b := ln b in
    let ln_beta := ln beta in
    let bpob := bp / b in
    let h := x / s in
    let b_halley := h * h / s - s / 4 in
    let newton := (ln_beta - ln_b) * ln_b / ln_beta / bpob in
    let halley := b_halley - bpob * (1 + 2 / ln_b) in
    let b_hh3 := b_halley * b_halley - 3 * (h / s) ^ 2 - / 4 in
    let hh3 := b_hh3 + 2 * bpob ^ 2 * (1 + 3 / ln_b * (1 + 1 / ln_b)) - 3 * b_halley * bpob * (1 + 2 / ln_b) in
    if Reqb ln_b 0 then NaN else householder_step newton halley hh3.
(** 959-972: highest segment *)
Definition upper_step (x beta b_max s_left s_right s b bp : R) : fval :=
  if Rleb b_max b || Rleb bp f64_eps then Fin (/ 2 * (s_left + s_right) - s)
  else
    let b_max_minus_b := b_max - b in
    let g := ln ((b_max - beta) / b_max_minus_b) in
    let gp := bp / b_max_minus_b in
    let b_halley := (x / s) ^ 2 / s - s / 4 in
    let b_hh3 := b_halley * b_halley - 3 * (x / (s * s)) ^ 2 - / 4 in
    let newton := - g / gp in
    let halley := b_halley + gp in
    let hh3 := b_hh3 + gp * (2 * gp + 3 * b_halley) in
    householder_step newton halley hh3.
(** 1000-1004: middle segments *)
Definition middle_step (x beta s_left s_right s b bp : R) : fval :=
  let newton := (beta - b) / bp in
  let halley := (x / s) ^ 2 - s / 4 in
  let hh3 := halley * halley - 3 * (x / (s * s)) ^ 2 - / 4 in
  householder_step newton halley hh3.

(** 803-849, 934-976, 988-1008: the three loops differ in the step only. [n] is
    the number of iterations left, [it] the number made. A step to infinity makes
    [s] infinite and ends the loop (inf > inf is false); NaN and minus infinity
    lose against [-0.5 * s] in [ds.max(-0.5 * s)]. *)
Fixpoint householder_loop (step : R -> R -> R -> R -> R -> fval) (x beta : R) (n it reversals : nat)
         (s ds ds_previous s_left s_right : R) : fval :=
  match n with
  | O => Fin s
  | S n' =>
    if negb (Rltb (f64_eps * s) (Rabs ds)) then Fin s
    else
      let reversals := if Rltb (ds * ds_previous) 0 then S reversals else reversals in
      let nest := (0 <? it)%nat && ((3 =? reversals)%nat || negb (Rltb s_left s && Rltb s s_right)) in
      let s := if nest then / 2 * (s_left + s_right) else s in
      if nest && Rleb (s_right - s_left) (f64_eps * s) then Fin s
      else
        let reversals := if nest then O else reversals in
        let ds := if nest then 0 else ds in
        let ds_previous := ds in
        let b := normalised_black_call x s in
        let bp := normalised_vega x s in
        let tighten_right := Rltb beta b && Rltb s s_right in
        let tighten_left := negb tighten_right && Rltb b beta && Rltb s_left s in
        let s_right := if tighten_right then s else s_right in
        let s_left := if tighten_left then s else s_left in
        let continue d :=
          let ds := Rmax d (- / 2 * s) in
          householder_loop step x beta n' (S it) reversals (s + ds) ds ds_previous s_left s_right in
        match step s_left s_right s b bp with
        | PosInf => PosInf
        | Fin d => continue d
        | NegInf | NaN => continue (- / 2 * s)
        end
  end.

(** the first guess, the step and the bracket of the segment that [beta] lies in *)
Record segment := Segment { sg_step : R -> R -> R -> R -> R -> fval; sg_s : R; sg_left : R; sg_right : R }.

(** 735-800: lowest segment *)
Definition lowest_segment (erf_inv : R -> R) (beta x s_l b_l : R) : segment :=
  match compute_f_lower_map_and_first_two_derivatives x s_l with
  | (f_lower_map_l, d_f_lower_map_l_d_beta, d2_f_lower_map_l_d_beta2) =>
    let r_ll := convex_control_right 0 b_l 0 f_lower_map_l 1 d_f_lower_map_l_d_beta d2_f_lower_map_l_d_beta2 true in
    let f := interpolation beta 0 b_l 0 f_lower_map_l 1 d_f_lower_map_l_d_beta r_ll in
    let f := if Rleb f 0 then let t := beta / b_l in (f_lower_map_l * t + b_l * (1 - t)) * t else f in
    Segment (lower_step x beta) (inverse_f_lower_map erf_inv x f) f64_min_pos s_l
  end.
(** 852-869: lower middle segment *)
Definition lower_middle_segment (beta x s_c b_c v_c s_l b_l : R) : segment :=
  let v_l := normalised_vega x s_l in
  let r_lm := convex_control_right b_l b_c s_l s_c (1 / v_l) (1 / v_c) 0 false in
  Segment (middle_step x beta) (interpolation beta b_l b_c s_l s_c (1 / v_l) (1 / v_c) r_lm) s_l s_c.
(** 876-891: upper middle segment *)
Definition upper_middle_segment (beta x s_c b_c v_c s_u b_u : R) : segment :=
  let v_u := normalised_vega x s_u in
  let r_hm := convex_control_left b_c b_u s_c s_u (1 / v_c) (1 / v_u) 0 false in
  Segment (middle_step x beta) (interpolation beta b_c b_u s_c s_u (1 / v_c) (1 / v_u) r_hm) s_c s_u.
(** 892-933: highest segment. [f] stays [f64::MIN] when the second derivative is
    out of range *)
Definition highest_segment (erf_inv : R -> R) (beta x b_max s_u b_u : R) : segment :=
  match compute_f_upper_map_and_first_two_derivatives x s_u with
  | (f_upper_map_h, d_f_upper_map_h_d_beta, d2_f_upper_map_h_d_beta2) =>
    let f :=
      if Rltb (- SQRT_DBL_MAX) d2_f_upper_map_h_d_beta2 && Rltb d2_f_upper_map_h_d_beta2 SQRT_DBL_MAX then
        let r_hh := convex_control_left b_u b_max f_upper_map_h 0 d_f_upper_map_h_d_beta (- / 2) d2_f_upper_map_h_d_beta2 true in
        interpolation beta b_u b_max f_upper_map_h 0 d_f_upper_map_h_d_beta (- / 2) r_hh
      else - f64_max in
    let f :=
      if Rleb f 0 then
        let h := b_max - b_u in
        let t := (beta - b_u) / h in
        (f_upper_map_h * (1 - t) + / 2 * h * t) * (1 - t)
      else f in
    Segment (if Rltb (/ 2 * b_max) beta then upper_step x beta b_max else middle_step x beta)
            (inverse_f_upper_map erf_inv f) s_u f64_max
  end.
(** 727-735, 870-876, 933: which segment *)
Definition choose_segment (erf_inv : R -> R) (beta x : R) : segment :=
  let b_max := exp (/ 2 * x) in
  let s_c := sqrt (Rabs (2 * x)) in
  let b_c := normalised_black_call x s_c in
  let v_c := normalised_vega x s_c in
  if Rltb beta b_c then
    let s_l := s_c - b_c / v_c in
    let b_l := normalised_black_call x s_l in
    if Rltb beta b_l then lowest_segment erf_inv beta x s_l b_l
    else lower_middle_segment beta x s_c b_c v_c s_l b_l
  else
    let s_u := if Rltb f64_eps v_c then s_c + (b_max - b_c) / v_c else s_c in
    let b_u := normalised_black_call x s_u in
    if Rleb beta b_u then upper_middle_segment beta x s_c b_c v_c s_u b_u
    else highest_segment erf_inv beta x b_max s_u b_u.

(** 692-1010 [unchecked_normalised_implied_volatility_...] *)
Definition normalised_implied_volatility (erf_inv : R -> R) (beta x q : R) (n : nat) : fval :=
  let itm := Rltb 0 (q * x) in
  let beta := if itm then beta - normalised_intrinsic x q else beta in
  let q := if itm then - q else q in
  let x := if Rltb q 0 then - x else x in
  if Rltb beta 0 then NegInf
  else if Rleb beta DENORMALIZATION_CUTOFF then Fin 0
  else if Rleb (exp (/ 2 * x)) beta then PosInf
  else
    let sg := choose_segment erf_inv beta x in
    householder_loop (sg_step sg) x beta n 0 0 (sg_s sg) (- f64_max) 0 (sg_left sg) (sg_right sg).

(** [f64::recip(T.sqrt()) * v] for positive [T] *)
Definition scale_fval (c : R) (v : fval) : fval := match v with Fin x => Fin (c * x) | v => v end.

(** 1012-1047 [implied_volatility_from_a_transformed_rational_guess_with_limited_iterations] *)
Definition undiscounted_implied_volatility (erf_inv : R -> R) (undiscounted_option_price F K T q : R) : fval :=
  let intrinsic := Rmax (if Rltb q 0 then K - F else F - K) 0 in
  if Rltb undiscounted_option_price intrinsic then NegInf
  else
    let max_price := if Rltb q 0 then K else F in
    if Rleb max_price undiscounted_option_price then PosInf
    else
      let x := ln (F / K) in
      let itm := Rltb 0 (q * x) in
      let new_price := if itm then Rmax (undiscounted_option_price - intrinsic) 0 else undiscounted_option_price in
      let new_q := if itm then - q else q in
      scale_fval (/ sqrt T)
        (normalised_implied_volatility erf_inv (new_price / (sqrt F * sqrt K)) x new_q IMPLIED_VOLATILITY_MAXIMUM_ITERATIONS).

(** 92-115 [implied_volatility], 117-121 [iv] *)
Definition implied_volatility (erf_inv : R -> R) (price S K T r : R) (flag : type_flag) : fval :=
  let rate := exp (r * T) in
  undiscounted_implied_volatility erf_inv (price * rate) (S * rate) K T (match flag with Call => 1 | Put => -1 end).

(** black_scholes_merton.rs 142-152 [BlackScholesMerton::implied_volatility] *)
Definition o_implied_volatility (erf_inv : R -> R) (o : bsm_opt) (price : R) : fval :=
  implied_volatility erf_inv price (o_s o) (o_k o) (o_t o) (o_r o) (o_tf o).
