(** Gradient descent in binary64: crates/RustQuant_math/src/optimization/gradient_descent.rs 88-218.
    The objective is a parameter: it gives the value and the gradient at a point, or panics.  The code
    evaluates it twice at one location, and it has no side effect on the values.  The sign of the zero
    that [sum] starts from is a parameter; the elapsed time and the printing are left out. *)
From Coq Require Import ZArith List Bool.
From Flocq Require Import IEEE754.BinarySingleNaN.
From Verif Require Import Res F64Model F64RootModel.
Import ListNotations.

(** 88-97 [struct GradientDescent] *)
Record gd64 := Gd64 { lr64 : f64; maxit64 : nat; tol64 : option f64 }.
(** 101-113 [struct GradientDescentResult] *)
Record gdres64 := GdRes64 { argmin64 : list f64; min64 : f64; its64 : nat }.

(** 122-132 [new]: [tolerance > 0.0] *)
Definition gd_new64 (lr : f64) (n : nat) (tol : option f64) : res gd64 :=
  match tol with
  | Some t => assertb (flt zero t) (Ret (Gd64 lr n tol))
  | None => Ret (Gd64 lr n tol)
  end.

Section Sums.
  Variable neg : bool.
  (** 137-145 [is_stationary], [norm] *)
  Definition gnorm64 (x : list f64) : f64 := fsqrt (fsum neg (map sq64 x)).
  Definition stationary64 (g : list f64) (tol : f64) : bool := flt (gnorm64 g) tol.

  (** 160: [self.tolerance.unwrap_or(f64::EPSILON.sqrt())] *)
  Definition gtol64 (c : gd64) : f64 := match tol64 c with Some t => t | None => fsqrt eps64 end.

  (** 187-191: [iter_mut().zip(&gradient)] *)
  Fixpoint update64 (lr : f64) (x g : list f64) : list f64 :=
    match x, g with
    | a :: x', b :: g' => fsub a (fmul lr b) :: update64 lr x' g'
    | _, _ => x
    end.

  (** 169-214: the loop, [left] iterations to go, [k] done *)
  Fixpoint gd_loop64 (f : list f64 -> res (f64 * list f64)) (lr tol : f64) (left k : nat) (r : gdres64) : res gdres64 :=
    match left with
    | O => Ret r
    | S left' =>
        let! (v, g) := f (argmin64 r) in
        if stationary64 g tol then Ret (GdRes64 (argmin64 r) (min64 r) (S k))
        else gd_loop64 f lr tol left' (S k) (GdRes64 (update64 lr (argmin64 r) g) v (S k))
    end.

  (** 154-218 [optimize] *)
  Definition optimize64 (c : gd64) (f : list f64 -> res (f64 * list f64)) (x0 : list f64) : res gdres64 :=
    gd_loop64 f (lr64 c) (gtol64 c) (maxit64 c) 0 (GdRes64 x0 zero 0).
End Sums.
