(** Model of RustQuant_math/src/fft.rs.

    Simplifications: [f64] is [R]; [Complex<f64>] is Coquelicot's [C]; in-place
    and copying variants compute the same value. [fuel] bounds the recursion;
    the theorems show it suffices for the lengths that pass the check. *)
From Coq Require Import Reals List Bool ZArith.
From Coquelicot Require Import Complex.
From Verif Require Import Res InterpModel.
Import ListNotations.
Open Scope R_scope.

(** 114-129 [split_array] *)
Fixpoint split_array {A} (x : list A) : list A * list A :=
  match x with
  | [] => ([], [])
  | [a] => ([a], [])
  | a :: b :: x' => let '(e, o) := split_array x' in (a :: e, b :: o)
  end.

(** 61-63 [is_valid_length]: the fractional part of [log2 (len)] against 1e-10;
    for length 0 the logarithm is [-inf], its remainder NaN, and the comparison
    false *)
Definition is_valid_length (n : nat) : bool :=
  match n with
  | O => false
  | _ => Rltb (Rabs (frac_part (ln (INR n) / ln 2))) (/ 10000000000)
  end.

Section Calc.
  Context {A : Type} (add sub : A -> A -> A) (twiddle : nat -> nat -> A -> A).
  (** 85-92 and 107-111: the butterfly loop for [k] in [k0 .. n/2) *)
  Fixpoint butterflies (n k : nat) (even odd : list A) : list A * list A :=
    match even, odd with
    | e :: even', o :: odd' =>
        let t := twiddle n k o in
        let '(lo, hi) := butterflies n (S k) even' odd' in
        (add e t :: lo, sub e t :: hi)
    | _, _ => ([], [])
    end.
  (** 74-93 [fft_real_calculation], 96-112 [fft_complex_calculation]: entries
      beyond [2*(n/2)] keep their input value *)
  Fixpoint calculation (fuel : nat) (x : list A) : res (list A) :=
    match fuel with
    | O => NoFuel
    | S fuel' =>
        let n := length x in
        if Nat.eqb n 1 then Ret x
        else
          let '(even, odd) := split_array x in
          let! even' := calculation fuel' even in
          let! odd' := calculation fuel' odd in
          let '(lo, hi) := butterflies n 0 even' odd' in
          Ret (lo ++ hi ++ skipn (2 * Nat.div2 n) x)
    end.
End Calc.

(** [Complex::new(0.0, theta).exp()] *)
Definition cis (theta : R) : C := (cos theta, sin theta).
Definition angle (n k : nat) : R := - 2 * PI * INR k / INR n.
(** 108 *)
Definition complex_twiddle (n k : nat) (z : C) : C := Cmult (cis (angle n k)) z.
(** 86-89: [.norm()] of the exponential *)
Definition real_twiddle (n k : nat) (v : R) : R := Cmod (cis (angle n k)) * v.

(** 49-57 [fft_complex] (and 41-44 in place) *)
Definition fft_complex (fuel : nat) (x : list C) : res (list C) :=
  assertb (is_valid_length (length x)) (calculation Cplus Cminus complex_twiddle fuel x).
(** 29-37 [fft_real] (and 21-24 in place) *)
Definition fft_real (fuel : nat) (x : list R) : res (list R) :=
  assertb (is_valid_length (length x)) (calculation Rplus Rminus real_twiddle fuel x).
