(** The activation functions in binary64 (crates/RustQuant_ml/src/activations.rs 88-132 for [f64],
    63-65 for the value of the autodiff version of relu).  [exp], [ln], [tanh] and [erf] of the
    library are parameters. *)
From Verif Require Import F64Model F64RootModel F64VarModel.

Section Act64.
  Variables exp64 ln64 erf64 : f64 -> f64.
  (** 90-92, 100-102: [1.0 / (1.0 + (-self).exp())] *)
  Definition sigmoid64 (x : f64) : f64 := fdiv one (fadd one (exp64 (fneg x))).
  (** 105-111: [if *self > 0.0 { *self } else { 0.0 }] *)
  Definition relu64 (x : f64) : f64 := if flt zero x then x else zero.
  (** 63-65: the value of [(x + x.abs()) / 2.0] on the tape *)
  Definition v_relu64 (x : f64) : f64 := fdiv (fadd x (fabs x)) two.
  (** 114-116: [0.5 * self * (1.0 + erf(self / 2_f64.sqrt()))] *)
  Definition gelu64 (x : f64) : f64 := fmul (fmul half64 x) (fadd one (erf64 (fdiv x (fsqrt two)))).
  (** 124-126: [(1.0 + self.exp()).ln()] *)
  Definition softplus64 (x : f64) : f64 := ln64 (fadd one (exp64 x)).
  (** 129-131: [f64::powi(-self, 2).exp()]; [powi] with exponent two is one product *)
  Definition gaussian64 (x : f64) : f64 := exp64 (fmul (fneg x) (fneg x)).
End Act64.
