(** Model of the closed-form option models of
    crates/RustQuant_instruments/src/options/option_models.rs
    (generalised Black-Scholes-Merton, Heston, Bachelier, SABR) and of
    .../options/black_scholes_merton.rs.

    f64 is [R]; [N.pdf] and [N.cdf] (gaussian.rs 102-109, 137-142 at mean 0,
    variance 1) are [npdf] and [ncdf] of SpecialFns.v. Divisions by zero and
    logarithms of non-positive numbers are not tracked for the
    Black-Scholes-Merton and Bachelier formulas: the theorems assume positive
    spot, strike, volatility and time. They are tracked ([option]) for SABR,
    where they matter at the money, and for the Bachelier implied volatility. *)
From Coq Require Import Reals List Bool.
From Coquelicot Require Import Coquelicot.
From Verif Require Import Res InterpModel RList StatModel PayoffModel SpecialFns.
Import ListNotations.
Open Scope R_scope.

(** ** option_models.rs, mod bsm *)

(** 307-310 *)
Definition d1 (s k t b v : R) : R := (ln (s / k) + (b + / 2 * v ^ 2) * t) / (v * sqrt t).
(** 312-315 *)
Definition d2 (s k t b v : R) : R := d1 s k t b v - v * sqrt t.
(** 317-323 *)
Definition call_price (s k t r b v : R) : R :=
  s * exp ((b - r) * t) * ncdf (d1 s k t b v) - k * exp (- r * t) * ncdf (d2 s k t b v).
(** 325-331 *)
Definition put_price (s k t r b v : R) : R :=
  - s * exp ((b - r) * t) * ncdf (- d1 s k t b v) + k * exp (- r * t) * ncdf (- d2 s k t b v).
(** 333-338 *)
Definition call_delta (s k t r b v : R) : R := exp ((b - r) * t) * ncdf (d1 s k t b v).
(** 340-345 *)
Definition put_delta (s k t r b v : R) : R := exp ((b - r) * t) * (ncdf (d1 s k t b v) - 1).
(** 347-352 *)
Definition call_gamma (s k t r b v : R) : R := exp ((b - r) * t) * npdf (d1 s k t b v) / (s * v * sqrt t).
(** 354-357 *)
Definition put_gamma (s k t r b v : R) : R := call_gamma s k t r b v.
(** 359-367 *)
Definition call_theta (s k t r b v : R) : R :=
  - s * exp ((b - r) * t) * npdf (d1 s k t b v) * v / (2 * sqrt t)
  - (b - r) * s * exp ((b - r) * t) * ncdf (d1 s k t b v)
  - r * k * exp (- r * t) * ncdf (d2 s k t b v).
(** 369-377 *)
Definition put_theta (s k t r b v : R) : R :=
  - s * exp ((b - r) * t) * npdf (d1 s k t b v) * v / (2 * sqrt t)
  + (b - r) * s * exp ((b - r) * t) * ncdf (- d1 s k t b v)
  + r * k * exp (- r * t) * ncdf (- d2 s k t b v).
(** 379-384 *)
Definition call_vega (s k t r b v : R) : R := s * exp ((b - r) * t) * npdf (d1 s k t b v) * sqrt t.
(** 386-389 *)
Definition put_vega (s k t r b v : R) : R := call_vega s k t r b v.
(** 391-396 *)
Definition call_rho (s k t r b v : R) : R := k * t * exp (- r * t) * ncdf (d2 s k t b v).
(** 398-403 *)
Definition put_rho (s k t r b v : R) : R := - k * t * exp (- r * t) * ncdf (- d2 s k t b v).
(** 405-411 *)
Definition call_vanna (s k t r b v : R) : R := - exp ((b - r) * t) * npdf (d1 s k t b v) * d2 s k t b v / v.
(** 413-416 *)
Definition put_vanna (s k t r b v : R) : R := call_vanna s k t r b v.
(** 418-425 *)
Definition call_charm (s k t r b v : R) : R :=
  exp ((b - r) * t)
  * (npdf (d1 s k t b v) * (b / (v * sqrt t) - d2 s k t b v / (2 * t)) + (b - r) * ncdf (d1 s k t b v)).
(** 427-434 *)
Definition put_charm (s k t r b v : R) : R :=
  exp ((b - r) * t)
  * (npdf (d1 s k t b v) * (b / (v * sqrt t) - d2 s k t b v / (2 * t)) - (b - r) * ncdf (- d1 s k t b v)).
(** 436-439 *)
Definition call_lambda (s k t r b v : R) : R := call_delta s k t r b v * s / call_price s k t r b v.
(** 441-444 *)
Definition put_lambda (s k t r b v : R) : R := put_delta s k t r b v * s / put_price s k t r b v.
(** 446-452 *)
Definition call_zomma (s k t r b v : R) : R := call_gamma s k t r b v * ((d1 s k t b v * d2 s k t b v - 1) / v).
(** 454-460 *)
Definition put_zomma (s k t r b v : R) : R := put_gamma s k t r b v * ((d1 s k t b v * d2 s k t b v - 1) / v).
(** 462-467 *)
Definition call_speed (s k t r b v : R) : R := - call_gamma s k t r b v * (1 + d1 s k t b v / (v * sqrt t)) / s.
(** 469-474 *)
Definition put_speed (s k t r b v : R) : R := - put_gamma s k t r b v * (1 + d1 s k t b v / (v * sqrt t)) / s.
(** 476-483 *)
Definition call_color (s k t r b v : R) : R :=
  call_gamma s k t r b v * (r - b + b * d1 s k t b v / (v * sqrt t) + (1 - d1 s k t b v * d2 s k t b v) / (2 * t)).
(** 485-492 *)
Definition put_color (s k t r b v : R) : R :=
  put_gamma s k t r b v * (r - b + b * d1 s k t b v / (v * sqrt t) + (1 - d1 s k t b v * d2 s k t b v) / (2 * t)).
(** 494-500 *)
Definition call_vomma (s k t r b v : R) : R := call_vega s k t r b v * d1 s k t b v * d2 s k t b v / v.
(** 502-508 *)
Definition put_vomma (s k t r b v : R) : R := put_vega s k t r b v * d1 s k t b v * d2 s k t b v / v.
(** 510-516 *)
Definition call_ultima (s k t r b v : R) : R :=
  let x := d1 s k t b v in let y := d2 s k t b v in
  call_vomma s k t r b v / v * (x * y - x / y + y / x - 1).
(** 518-524 *)
Definition put_ultima (s k t r b v : R) : R :=
  let x := d1 s k t b v in let y := d2 s k t b v in
  put_vomma s k t r b v / v * (x * y - x / y + y / x - 1).

(** the variants: 145-165, 167-187, 189-209, 211-231, 233-253 *)
Inductive gbsm :=
| BlackScholes73 (s r v : R)
| Merton73 (s r q v : R)
| Black76 (f r v : R)
| Asay82 (f v : R)
| GarmanKohlhagen83 (s r_d r_f v : R).
Definition g_s (m : gbsm) : R := match m with
  | BlackScholes73 s _ _ => s | Merton73 s _ _ _ => s | Black76 f _ _ => f | Asay82 f _ => f | GarmanKohlhagen83 s _ _ _ => s end.
Definition g_r (m : gbsm) : R := match m with
  | BlackScholes73 _ r _ => r | Merton73 _ r _ _ => r | Black76 _ r _ => r | Asay82 _ _ => 0 | GarmanKohlhagen83 _ r _ _ => r end.
Definition g_b (m : gbsm) : R := match m with
  | BlackScholes73 _ r _ => r | Merton73 _ r q _ => r - q | Black76 _ _ _ => 0 | Asay82 _ _ => 0 | GarmanKohlhagen83 _ rd rf _ => rd - rf end.
Definition g_v (m : gbsm) : R := match m with
  | BlackScholes73 _ _ v => v | Merton73 _ _ _ v => v | Black76 _ _ v => v | Asay82 _ v => v | GarmanKohlhagen83 _ _ _ v => v end.
(** 527-644 [impl_gbsm]: dispatch on the type flag *)
Definition dispatch (fc fp : R -> R -> R -> R -> R -> R -> R) (m : gbsm) (k t : R) (tf : type_flag) : R :=
  match tf with
  | Call => fc (g_s m) k t (g_r m) (g_b m) (g_v m)
  | Put => fp (g_s m) k t (g_r m) (g_b m) (g_v m)
  end.
Definition g_price := dispatch call_price put_price.
Definition g_delta := dispatch call_delta put_delta.
Definition g_gamma := dispatch call_gamma put_gamma.
Definition g_theta := dispatch call_theta put_theta.
Definition g_vega := dispatch call_vega put_vega.
Definition g_rho := dispatch call_rho put_rho.
Definition g_vanna := dispatch call_vanna put_vanna.
Definition g_charm := dispatch call_charm put_charm.
Definition g_lambda := dispatch call_lambda put_lambda.
Definition g_zomma := dispatch call_zomma put_zomma.
Definition g_speed := dispatch call_speed put_speed.
Definition g_color := dispatch call_color put_color.
Definition g_vomma := dispatch call_vomma put_vomma.
Definition g_ultima := dispatch call_ultima put_ultima.

(** ** black_scholes_merton.rs: the date-based pricer, with [o_t] the year
    fraction of 156-161 (Actual/365.25, DayCountModel.v) *)
Record bsm_opt := BsmOpt { o_b : R; o_s : R; o_k : R; o_v : R; o_r : R; o_t : R; o_tf : type_flag }.
(** 165-176 *)
Definition o_d1 (o : bsm_opt) : R :=
  1 / (o_v o * sqrt (o_t o)) * (ln (o_s o / o_k o) + (o_b o + / 2 * o_v o ^ 2) * o_t o).
Definition o_d2 (o : bsm_opt) : R := o_d1 o - o_v o * sqrt (o_t o).
(** 128-140 *)
Definition o_price (o : bsm_opt) : R :=
  match o_tf o with
  | Call => o_s o * exp ((o_b o - o_r o) * o_t o) * ncdf (o_d1 o) - o_k o * exp (- o_r o * o_t o) * ncdf (o_d2 o)
  | Put => - o_s o * exp ((o_b o - o_r o) * o_t o) * ncdf (- o_d1 o) + o_k o * exp (- o_r o * o_t o) * ncdf (- o_d2 o)
  end.
(** 246-253 *)
Definition o_gamma (o : bsm_opt) : R := exp ((o_b o - o_r o) * o_t o) * npdf (o_d1 o) / (o_s o * o_v o * sqrt (o_t o)).
(** 257-259 *)
Definition o_gamma_percent (o : bsm_opt) : R := o_gamma o * o_s o / 100.
(** 304-313 *)
Definition o_vega (o : bsm_opt) : R := o_s o * exp ((o_b o - o_r o) * o_t o) * npdf (o_d1 o) * sqrt (o_t o).
(** 335-341 *)
Definition o_vega_bleed (o : bsm_opt) : R :=
  o_vega o * (o_r o - o_b o + o_b o * o_d1 o / (o_v o * sqrt (o_t o)) - (o_d1 o * o_d2 o + 1) / (2 * o_t o)).
(** 369-386 *)
Definition o_rho (o : bsm_opt) : R :=
  match o_tf o with
  | Call => o_k o * o_t o * exp (- o_r o * o_t o) * ncdf (o_d2 o)
  | Put => - o_k o * o_t o * exp (- o_r o * o_t o) * ncdf (- o_d2 o)
  end.
(** 391-401 *)
Definition o_phi (o : bsm_opt) : R :=
  match o_tf o with
  | Call => - o_t o * o_s o * exp ((o_b o - o_r o) * o_t o) * ncdf (o_d1 o)
  | Put => o_t o * o_s o * exp ((o_b o - o_r o) * o_t o) * ncdf (- o_d1 o)
  end.
(** 406-413 *)
Definition o_zeta (o : bsm_opt) : R := match o_tf o with Call => ncdf (o_d2 o) | Put => ncdf (- o_d2 o) end.
(** 418-427 *)
Definition o_strike_delta (o : bsm_opt) : R :=
  match o_tf o with
  | Call => - exp (- o_r o * o_t o) * ncdf (o_d2 o)
  | Put => exp (- o_r o * o_t o) * ncdf (- o_d2 o)
  end.
(** 431-437 *)
Definition o_strike_gamma (o : bsm_opt) : R :=
  npdf (o_d2 o) * exp (- o_r o * o_t o) / (o_k o * o_v o * sqrt (o_t o)).

(** ** option_models.rs, mod bachelier *)

(** 1010-1013 *)
Definition bd (f k t v : R) : R := (f - k) / (v * sqrt t).
(** 1015-1018 *)
Definition bdf (r t : R) : R := exp (- r * t).
(** 990-998, 1000-1008 *)
Definition bach_call (f k t r v : R) : R := bdf r t * ((f - k) * ncdf (bd f k t v) + v * sqrt t * npdf (bd f k t v)).
Definition bach_put (f k t r v : R) : R := bdf r t * ((k - f) * ncdf (- bd f k t v) + v * sqrt t * npdf (bd f k t v)).
(** 1020-1023, 1025-1028 *)
Definition bach_atm_price (t v : R) : R := v * sqrt (t / (2 * PI)).
Definition bach_atm_vol (price t : R) : R := price * sqrt (2 * PI / t).
(** 1099-1146 *)
Definition bach_call_delta (f k t v : R) : R := ncdf (bd f k t v).
Definition bach_put_delta (f k t v : R) : R := ncdf (bd f k t v) - 1.
Definition bach_gamma (f k t v : R) : R := npdf (bd f k t v) / (v * sqrt t).
Definition bach_vega (f k t v : R) : R := sqrt t * npdf (bd f k t v).
Definition bach_theta (f k t v : R) : R := - v * npdf (bd f k t v) / (2 * sqrt t).
(** 1030-1050: the coefficient tables *)
Definition iv_A : list R :=
  [399496168734513 / 10^15; 210096079506849 / 10^13; 498034021785508 / 10^13; 598876110269099 / 10^12;
   184848969543709 / 10^11; 610632240786705 / 10^11; 249341528534936 / 10^10; 126645805134824 / 10^10].
Definition iv_B : list R :=
  [499053415358942 / 10^13; 309357393674311 / 10^13; 149510500831099 / 10^11; 132361453789973 / 10^11;
   159891969767974 / 10^10; 239200889172078 / 10^10; 360881710837503 / 10^11; - (206771948640092 / 10^12);
   117424059930601 / 10^13].
Definition poly_from (i : nat) (cs : list R) (x : R) : R :=
  rsum (map (fun p => snd p * x ^ fst p) (combine (seq i (length cs)) cs)).
(** [atanh] on (-1, 1); elsewhere not finite *)
Definition fatanh (x : R) : option R := if Rltb (-1) x && Rltb x 1 then Some (/ 2 * ln ((1 + x) / (1 - x))) else None.
(** 1053-1074 [call_iv] ([call = true]) and 1076-1097 [put_iv]; they differ in
    the sign of f-k and in the put skipping the first denominator coefficient *)
Definition bach_iv (call : bool) (price f k t : R) : option R :=
  let m := if call then 2 * price - (f - k) else 2 * price + (f - k) in
  match fdiv (Rabs (f - k)) m with
  | None => None
  | Some v =>
      match fatanh v with
      | None => None
      | Some a =>
          match fdiv v a with
          | None => None
          | Some eta =>
              let sum1 := poly_from 0 iv_A eta in
              let sum2 := if call then poly_from 0 iv_B eta else poly_from 1 (tl iv_B) eta in
              option_map (fun hn => sqrt (PI / 2 / t) * m * hn) (fdiv (sqrt eta * sum1) (1 + sum2))
          end
      end
  end.

(** ** option_models.rs, mod sabr (forward and strike positive) *)
(** 1255-1257 *)
Definition fk_power (f k beta : R) : R := Rpower (f * k) ((1 - beta) / 2).
(** 1242-1244 *)
Definition sabr_z (f k beta : R) : R := ln (f / k) * fk_power f k beta.
(** 1246-1253; [None]: not a number *)
Definition sabr_chi (f k beta rho : R) : option R :=
  let z := sabr_z f k beta in
  let q := 1 - 2 * rho * z + z ^ 2 in
  if Rltb q 0 then None
  else match fln (sqrt q + z - rho) with Some n => fdiv n (1 - rho) | None => None end.
(** 1224-1226 *)
Definition sabr_coefficient (f k beta rho : R) : option R :=
  match sabr_chi f k beta rho with Some c => fdiv (sabr_z f k beta) c | None => None end.
(** 1228-1233 *)
Definition sabr_numerator (f k t alpha beta rho nu : R) : R :=
  let p := fk_power f k beta in
  alpha * (1 + ((1 - beta) ^ 2 * alpha ^ 2 / (24 * p ^ 2) + / 4 * rho * beta * alpha * nu / p + (2 - 3 * rho ^ 2) * nu ^ 2 / 24) * t).
(** 1235-1240 *)
Definition sabr_denominator (f k beta : R) : R :=
  fk_power f k beta * (1 + (1 - beta) ^ 2 * ln (f / k) ^ 2 / 24 + (1 - beta) ^ 4 * ln (f / k) ^ 4 / 1920).
(** 1211-1222 *)
Definition sabr_volatility (f k t alpha beta rho nu : R) : option R :=
  match sabr_coefficient f k beta rho with
  | Some c => fdiv (c * sabr_numerator f k t alpha beta rho nu) (sabr_denominator f k beta)
  | None => None
  end.

(** ** option_models.rs, mod heston

    [num::Complex] is Coquelicot's [C]; [exp] is defined, [csqrt] and [cln]
    (principal branches) are parameters, and so are the quadrature nodes
    (abscissa, weight) of integration.rs. Non-finite integrand values, which
    [integrate] replaces by 0, do not arise in [R]. *)
Definition cexp (z : C) : C := (exp (fst z) * cos (snd z), exp (fst z) * sin (snd z)).
Section Heston.
  Variables (csqrt cln : C -> C) (nodes : list (R * R)).
  Local Open Scope C_scope.
  (** integration.rs 39-62, 65-76 *)
  Definition integrate (f : R -> R) (a b : R) : R :=
    let c := (/ 2 * (b - a))%R in
    let d := (/ 2 * (a + b))%R in
    (c * rsum (map (fun n => snd n * f (c * fst n + d)) nodes))%R.
  (** 650-654 [Switch] *)
  Inductive switch := One | Two.
  Variables (v t r q rho kappa theta sigma : R).
  (** 867-872, 874-879 (and 745-757) *)
  Definition h_u (j : switch) : R := match j with One => (/ 2)%R | Two => (- / 2)%R end.
  Definition h_b (j : switch) : R := match j with One => (kappa + 0 - rho * sigma)%R | Two => (kappa + 0)%R end.
  (** 881-885 (and 759-763) *)
  Definition h_d (j : switch) (phi : R) : C :=
    let x := RtoC (rho * sigma) * Ci * phi - h_b j in
    csqrt (x * x - RtoC (sigma ^ 2) * (RtoC (2 * h_u j) * Ci * phi - RtoC (phi ^ 2))).
  (** 887-889 (and 765-767) *)
  Definition h_g (j : switch) (phi : R) : C :=
    (h_b j - RtoC (rho * sigma) * Ci * phi + h_d j phi) / (h_b j - RtoC (rho * sigma) * Ci * phi - h_d j phi).
  (** 891-897 (and 769-775) *)
  Definition h_C (j : switch) (phi : R) : C :=
    RtoC (r - q) * Ci * phi * t
    + RtoC (kappa * theta / sigma ^ 2)
      * ((h_b j - RtoC (rho * sigma) * Ci * phi + h_d j phi) * t
         - 2 * cln ((1 - h_g j phi * cexp (h_d j phi * t)) / (1 - h_g j phi))).
  (** 899-902 (and 777-780) *)
  Definition h_D (j : switch) (phi : R) : C :=
    ((h_b j - RtoC (rho * sigma) * Ci * phi + h_d j phi) * (1 - cexp (h_d j phi * t)))
    / (RtoC (sigma ^ 2) * (1 - h_g j phi * cexp (h_d j phi * t))).
  (** 905-907 (and 783-785) *)
  Definition h_f (s : R) (j : switch) (phi : R) : C := cexp (h_C j phi + h_D j phi * v + Ci * phi * RtoC (ln s)).
  (** 910-919 *)
  Definition h_re (s k : R) (j : switch) (phi : R) : R :=
    fst (h_f s j phi * cexp (- Ci * phi * RtoC (ln k)) / (Ci * phi)).
  (** 923-926 *)
  Definition h_P (s k : R) (j : switch) : R := (/ 2 + / PI * integrate (h_re s k j) (1 / 100000) 50)%R.
  Local Close Scope C_scope.
  Local Open Scope R_scope.
  (** 658-673, 676-691, 693-708, 710-723 *)
  Definition heston_call (s k : R) : R := s * exp (- q * t) * h_P s k One - k * exp (- r * t) * h_P s k Two.
  Definition heston_put (s k : R) : R := heston_call s k + (k * exp (- r * t) - s * exp (- q * t)).
  Definition heston_call_delta (s k : R) : R := exp (- q * t) * h_P s k One.
  Definition heston_put_delta (s k : R) : R := heston_call_delta s k - exp (- q * t).
  (** 725-796, 798-811 *)
  Definition heston_gamma (s k : R) : R :=
    integrate (fun phi => fst (Cmult (cexp (Cmult (Cmult (Copp Ci) phi) (RtoC (ln k)))) (h_f s One phi))) (1 / 100000) 50 * / (PI * s) * exp (- q * t).
  (** 813-828, 830-845 *)
  Definition heston_call_rho (s k : R) : R := k * t * exp (- r * t) * h_P s k Two.
  Definition heston_put_rho (s k : R) : R := k * t * exp (- r * t) * (h_P s k Two - 1).
End Heston.
