(** Model of the Nelson-Siegel-Svensson curve
    (crates/RustQuant_stochastics/src/nelson_siegel_svensson.rs).

    Simplifications: [f64] is [R], a NaN is [None]; [today()] is an argument;
    day counts are exact rationals ([DayCountModel]). *)
From Coq Require Import Reals QArith Qreals Bool.
From Verif Require Import Res InterpModel DateModel DayCountModel.
Open Scope R_scope.

(** 19-38 [struct NelsonSiegelSvensson] *)
Record nss := Nss { beta0 : R; beta1 : R; beta2 : R; beta3 : R; lambda1 : R; lambda2 : R }.

(** [f64::exp(-tau / lambda)] for a positive tau; a zero lambda gives exp(-inf) = 0 *)
Definition decay (lambda tau : R) : R := if Reqb lambda 0 then 0 else exp (- tau / lambda).

(** 71-78: forward rate at a year fraction; a zero lambda gives inf * 0 = NaN *)
Definition forward_at (m : nss) (tau : R) : option R :=
  if Reqb (lambda1 m) 0 || Reqb (lambda2 m) 0 then None else
  let term1 := exp (- tau / lambda1 m) in
  let term2 := (tau / lambda1 m) * term1 in
  let term3 := (tau / lambda2 m) * exp (- tau / lambda2 m) in
  Some (beta0 m + beta1 m * term1 + beta2 m * term2 + beta3 m * term3).

(** 84-91: spot rate *)
Definition spot_at (m : nss) (tau : R) : R :=
  let term1 := lambda1 m * (1 - decay (lambda1 m) tau) / tau in
  let term2 := term1 - decay (lambda1 m) tau in
  let term3 := lambda2 m * (1 - decay (lambda2 m) tau) / tau - decay (lambda2 m) tau in
  beta0 m + beta1 m * term1 + beta2 m * term2 + beta3 m * term3.

Definition tau_of (today d : date) : res R := let! q := day_count_factor Actual_365_25 today d in Ret (Q2R q).

(** 68-79 [forward_rate] *)
Definition forward_rate (m : nss) (today d : date) : res (option R) :=
  assertb (date_ltb today d) (let! tau := tau_of today d in Ret (forward_at m tau)).
(** 81-92 [spot_rate] *)
Definition spot_rate (m : nss) (today d : date) : res R :=
  assertb (date_ltb today d) (let! tau := tau_of today d in Ret (spot_at m tau)).
(** 94-98 [discount_factor] *)
Definition discount_factor (m : nss) (today d : date) : res R :=
  let! tau := tau_of today d in
  let! s := spot_rate m today d in
  Ret (exp (- s * tau / 100)).
