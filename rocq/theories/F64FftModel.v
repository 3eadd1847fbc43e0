(** The complex fast Fourier transform in binary64 (crates/RustQuant_math/src/fft.rs 41-57, 96-129).
    The recursion is [FftModel.calculation] with the arithmetic of [num_complex::Complex<f64>].
    [cos], [sin] and the length check (which calls [log2]) are parameters. *)
From Coq Require Import ZArith List Bool.
From Verif Require Import Res F64Model.
From Verif Require FftModel.
Import ListNotations.

Definition c64 : Type := (f64 * f64)%type.
(** [Complex::add], [Complex::sub]: componentwise *)
Definition cadd64 (x y : c64) : c64 := (fadd (fst x) (fst y), fadd (snd x) (snd y)).
Definition csub64 (x y : c64) : c64 := (fsub (fst x) (fst y), fsub (snd x) (snd y)).
(** [Complex::mul]: [re = a.re*b.re - a.im*b.im], [im = a.re*b.im + a.im*b.re] *)
Definition cmul64 (x y : c64) : c64 :=
  (fsub (fmul (fst x) (fst y)) (fmul (snd x) (snd y)), fadd (fmul (fst x) (snd y)) (fmul (snd x) (fst y))).
(** [std::f64::consts::PI] and the literal -2.0 *)
Definition PI64 : f64 := lit 884279719003555 (-48).
Definition m_two : f64 := lit (-2) 0.
Section Fft64.
  Context (cos64 sin64 : f64 -> f64) (valid64 : nat -> bool).
  (** 108: [-2.0 * PI * (k as f64) / (n as f64)] *)
  Definition angle64 (n k : nat) : f64 := fdiv (fmul (fmul m_two PI64) (of_usize k)) (of_usize n).
  (** [Complex::new(0.0, theta).exp()]: [from_polar(exp(0.0), theta)]; [exp(0.0)] is 1.0 *)
  Definition cis64 (theta : f64) : c64 := (fmul one (cos64 theta), fmul one (sin64 theta)).
  (** 108 *)
  Definition twiddle64 (n k : nat) (z : c64) : c64 := cmul64 (cis64 (angle64 n k)) z.
  (** 96-112 [fft_complex_calculation] *)
  Definition calculation64 (fuel : nat) (x : list c64) : res (list c64) := FftModel.calculation cadd64 csub64 twiddle64 fuel x.
  (** 49-57 [fft_complex] *)
  Definition fft_complex64 (fuel : nat) (x : list c64) : res (list c64) := assertb (valid64 (length x)) (calculation64 fuel x).
End Fft64.
