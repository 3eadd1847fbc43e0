(** Model of the activation functions (crates/RustQuant_ml/src/activations.rs).

    Simplifications: [f64] is [R].  The versions on [Variable] are programs of the
    automatic differentiation model, variable 0 being the input. *)
From Coq Require Import Reals List ZArith.
From Verif Require Import Res InterpModel SpecialFns AdModel.
Import ListNotations.
Open Scope R_scope.

(** ** 46-86: on autodiff variables *)
(** 48-50, 58-60 *)
Definition v_sigmoid : list instr := [IUn Neg 0; IUn Exp 1; IVF VAdd 2 1; IUn Recip 3].
(** 63-65 *)
Definition v_relu : list instr := [IUn Abs 0; IBin Add 0 1; IVF VDiv 2 2].
(** 68-70 *)
Definition v_gelu : list instr :=
  [IFV Mul (1 / 2) 0; IVF VDiv 0 (sqrt 2); IUn Erf 2; IFV Add 1 3; IBin Mul 1 4].
(** 73-75 *)
Definition v_tanh : list instr := [IUn Tanh 0].
(** 78-80 *)
Definition v_softplus : list instr := [IUn Exp 0; IFV Add 1 1; IUn Ln 2].
(** 83-85 *)
Definition v_gaussian : list instr := [IPowi 0 2; IUn Neg 1; IUn Exp 2].

(** ** 88-132: on numbers *)
(** 90-92, 100-102 *)
Definition sigmoid (x : R) : R := 1 / (1 + exp (- x)).
(** 105-111 *)
Definition relu (x : R) : R := if Rltb 0 x then x else 0.
(** 114-116 *)
Definition gelu (x : R) : R := 1 / 2 * x * (1 + erf (x / sqrt 2)).
(** 119-121 *)
Definition f_tanh (x : R) : R := tanh x.
(** 124-126 *)
Definition softplus (x : R) : R := ln (1 + exp x).
(** 129-131: [f64::powi(-self, 2)] *)
Definition gaussian (x : R) : R := exp (powerRZ (- x) 2).

(** ** 134-174: on vectors, [self.map(..)] *)
Definition v_map (f : R -> R) (xs : list R) : list R := map f xs.
