(** The closed-form Black-Scholes-Merton price and delta in binary64:
    crates/RustQuant_instruments/src/options/option_models.rs 307-345 (module [bsm]) and
    .../options/black_scholes_merton.rs 128-140, 165-176.  [exp], [ln] and the normal distribution
    function [N.cdf] are parameters; [v.powi(2)] is one product. *)
From Verif Require Import PayoffModel F64Model F64RootModel F64QuadModel.

Section Bsm64.
  Variables exp64 ln64 cdf64 : f64 -> f64.
  (** the numerator of 309: [(s / k).ln() + (b + 0.5 * v.powi(2)) * t] *)
  Definition num64 (s k t b v : f64) : f64 := fadd (ln64 (fdiv s k)) (fmul (fadd b (fmul half64 (fmul v v))) t).
  (** [v * t.sqrt()] *)
  Definition dev64 (t v : f64) : f64 := fmul v (fsqrt t).
  (** option_models.rs 307-310 *)
  Definition d1_64 (s k t b v : f64) : f64 := fdiv (num64 s k t b v) (dev64 t v).
  (** black_scholes_merton.rs 171 *)
  Definition od1_64 (s k t b v : f64) : f64 := fmul (fdiv one (dev64 t v)) (num64 s k t b v).
  (** [s * ((b - r) * t).exp() * cdf], [k * (-r * t).exp() * cdf] *)
  Definition carry64 (t r b : f64) : f64 := exp64 (fmul (fsub b r) t).
  Definition disc64 (t r : f64) : f64 := exp64 (fmul (fneg r) t).
  (** option_models.rs 317-323, 325-331 and black_scholes_merton.rs 134-139, given d1 *)
  Definition call64 (d s k t r b v : f64) : f64 :=
    fsub (fmul (fmul s (carry64 t r b)) (cdf64 d)) (fmul (fmul k (disc64 t r)) (cdf64 (fsub d (dev64 t v)))).
  Definition put64 (d s k t r b v : f64) : f64 :=
    fadd (fmul (fmul (fneg s) (carry64 t r b)) (cdf64 (fneg d))) (fmul (fmul k (disc64 t r)) (cdf64 (fneg (fsub d (dev64 t v))))).
  (** option_models.rs 317-331 *)
  Definition price64 (tf : type_flag) (s k t r b v : f64) : f64 :=
    match tf with Call => call64 (d1_64 s k t b v) s k t r b v | Put => put64 (d1_64 s k t b v) s k t r b v end.
  (** black_scholes_merton.rs 128-140, [t] the year fraction of 156-161 *)
  Definition o_price64 (tf : type_flag) (s k t r b v : f64) : f64 :=
    match tf with Call => call64 (od1_64 s k t b v) s k t r b v | Put => put64 (od1_64 s k t b v) s k t r b v end.
  (** option_models.rs 333-338, 340-345 *)
  Definition delta64 (tf : type_flag) (s k t r b v : f64) : f64 :=
    match tf with
    | Call => fmul (carry64 t r b) (cdf64 (d1_64 s k t b v))
    | Put => fmul (carry64 t r b) (fsub (cdf64 (d1_64 s k t b v)) one)
    end.
End Bsm64.
