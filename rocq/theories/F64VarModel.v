(** Variables of the automatic differentiation as values
    (crates/RustQuant_autodiff/src/variable.rs and vertex.rs): comparison, classification and
    rounding, in binary64.  A graph is named by a number (its address). *)
From Coq Require Import ZArith List Bool.
From Flocq Require Import Core.Zaux IEEE754.BinarySingleNaN.
From Verif Require Import Res F64Model F64RootModel F64AdModel.
Import ListNotations.

(** variable.rs 30-37 *)
Record gvar := GVar { gv_graph : nat; gv_index : nat; gv_value : f64 }.

(** variable.rs 150-155 [PartialEq<f64>] *)
Definition var_eq_f (x : gvar) (c : f64) : bool := feq (gv_value x) c.
(** variable.rs 157-164 [PartialEq] *)
Definition var_eq (x y : gvar) : bool := Nat.eqb (gv_graph x) (gv_graph y) && Nat.eqb (gv_index x) (gv_index y) && feq (gv_value x) (gv_value y).
(** variable.rs 175-182 [Ord::cmp] *)
Definition var_cmp (x y : gvar) : comparison := match fcmp (gv_value x) (gv_value y) with Some c => c | None => Eq end.
(** variable.rs 168-173 [PartialOrd::partial_cmp] *)
Definition var_partial_cmp (x y : gvar) : option comparison := Some (var_cmp x y).

(** [f64::is_infinite], [is_normal], [is_subnormal]; the significand has 53 bits *)
Definition fis_infinite (x : f64) : bool := match x with B754_infinity _ => true | _ => false end.
Definition fis_normal (x : f64) : bool := match x with B754_finite _ m _ _ => Z.leb (2 ^ 52) (Zpos m) | _ => false end.
Definition fis_subnormal (x : f64) : bool := match x with B754_finite _ m _ _ => Z.ltb (Zpos m) (2 ^ 52) | _ => false end.
(** [f64::is_sign_positive], [is_sign_negative]: the sign bit.  The model has one NaN, and gives
    it the sign of the constant [f64::NAN]; the other one is not modelled. *)
Definition fis_sign_positive (x : f64) : bool := negb (Bsign x).
Definition fis_sign_negative (x : f64) : bool := Bsign x.
(** [f64::signum] *)
Definition fsignum (x : f64) : f64 := if is_nan x then nan else if Bsign x then fneg one else one.
(** [f64::round]: half away from zero *)
Definition fround (x : f64) : f64 := Bnearbyint mode_NA x.

(** variable.rs 75-125 *)
Definition var_is_finite (x : gvar) : bool := is_finite (gv_value x).
Definition var_is_infinite (x : gvar) : bool := fis_infinite (gv_value x).
Definition var_is_nan (x : gvar) : bool := is_nan (gv_value x).
Definition var_is_normal (x : gvar) : bool := fis_normal (gv_value x).
Definition var_is_subnormal (x : gvar) : bool := fis_subnormal (gv_value x).
Definition var_is_zero (x : gvar) : bool := feq (gv_value x) zero.
Definition var_is_positive (x : gvar) : bool := fis_sign_positive (gv_value x).
Definition var_is_negative (x : gvar) : bool := fis_sign_negative (gv_value x).
(** variable.rs 130-132 [round], 137-139 [signum] *)
Definition var_round (x : gvar) : gvar := GVar (gv_graph x) (gv_index x) (fround (gv_value x)).
Definition var_signum (x : gvar) : f64 := fsignum (gv_value x).

(** vertex.rs 61-90: the public constructors; the index of the vertex is not known to them *)
Definition vertex_new_binary (px : f64) (ix : nat) (py : f64) (iy : nat) : vertex64 := Vertex64 px py ix iy.
Definition vertex_new_unary (px : f64) (ix : nat) : vertex64 := Vertex64 px zero ix 0.
Definition vertex_new_nullary : vertex64 := Vertex64 zero zero 0 0.
(** vertex.rs 92-98 [PartialEq] *)
Definition vertex_eq (v w : vertex64) : bool :=
  feq (fp0 v) (fp0 w) && feq (fp1 v) (fp1 w) && (Nat.eqb (fq0 v) (fq0 w) && Nat.eqb (fq1 v) (fq1 w)).
(** gradient.rs 43-75: [wrt] a vector, slice or array of variables *)
Fixpoint wrt_all64 (adj : list f64) (xs : list gvar) : res (list f64) :=
  match xs with
  | [] => Ret []
  | x :: xs' => let! d := unwrap (nth_error adj (gv_index x)) in let! ds := wrt_all64 adj xs' in Ret (d :: ds)
  end.
