(** Model of the fractional noise generators
    (crates/RustQuant_stochastics/src/fractional_process.rs 44-155).

    Simplifications:
    - [f64] is [R]; the square root of a negative number is a NaN ([None]);
    - nalgebra's [Cholesky::new] is modelled by its algorithm (column by column,
      failing at a pivot that is not positive); ndrustfft's [ndfft_par] by the
      discrete Fourier transform it computes;
    - the normal draws are arguments: [z] for the Cholesky method, [u] and [v] (real
      and imaginary parts) for the Fourier method. *)
From Coq Require Import Reals List Arith.
From Verif Require Import Res InterpModel StatModel MatLib SimModel.
Import ListNotations.
Open Scope R_scope.

(** nalgebra [Cholesky::new]: column [j], given the columns before it; the part
    above the diagonal is cleared by [l()] *)
Definition chol_column (m L : mat) (j : nat) : res mat :=
  let d := m j j - bs j (fun k => L j k * L j k) in
  if Rltb 0 d then
    Ret (fun i k =>
      if Nat.eqb k j then
        if Nat.ltb i j then 0
        else if Nat.eqb i j then sqrt d
        else (m i j - bs j (fun k => L i k * L j k)) / sqrt d
      else L i k)
  else Panic.
Fixpoint cholesky (m : mat) (n : nat) : res mat :=
  match n with
  | O => Ret (fun _ _ => 0)
  | S n' => let! L := cholesky m n' in chol_column m L n'
  end.

(** 62-78 [acf_matrix_sqrt]: only the lower triangle is filled; [acf_vector]
    writes [v[0]], so a size of zero panics; [unwrap] panics if there is no factor *)
Definition acf_lower (h : R) : mat := fun i j => if Nat.leb j i then acf h (i - j) else 0.
Definition acf_matrix_sqrt (h : R) (n : nat) : res mat :=
  assertb (negb (Nat.eqb n 0)) (cholesky (acf_lower h) n).

(** 81-95 [fgn_cholesky] with the draws [z] *)
Definition fgn_chol (h : R) (n : nat) (t_n : R) (z : nat -> R) : res (list R) :=
  fgn_cholesky acf_matrix_sqrt (fun _ => z) (fun _ => z) h n t_n None 0.

(** ndrustfft: entry [j] of the transform of [N] complex numbers [(x, y)]: the sum of
    [(x_k + i y_k) * exp (- 2 pi i j k / N)] *)
Definition dft_angle (N j k : nat) : R := 2 * PI * INR j * INR k / INR N.
Definition dft_re (N : nat) (x y : nat -> R) (j : nat) : R :=
  bs N (fun k => x k * cos (dft_angle N j k) + y k * sin (dft_angle N j k)).
Definition dft_im (N : nat) (x y : nat -> R) (j : nat) : R :=
  bs N (fun k => y k * cos (dft_angle N j k) - x k * sin (dft_angle N j k)).

(** 101-117: the first row of the circulant matrix *)
Definition circulant_row (h : R) (n : nat) : list R :=
  let r := map (acf h) (seq 0 (S n)) in
  r ++ removelast (tl (rev r)).
(** 118-128: the eigenvalues, real and imaginary parts *)
Definition eigen_re (h : R) (n j : nat) : R :=
  let row := circulant_row h n in dft_re (length row) (fun k => nth k row 0) (fun _ => 0) j.
Definition eigen_im (h : R) (n j : nat) : R :=
  let row := circulant_row h n in dft_im (length row) (fun k => nth k row 0) (fun _ => 0) j.
(** 97-155 [fgn_fft].  One NaN among the square roots spreads to every output.
    The slice [1..n + 1] of an empty array panics. *)
Definition fgn_fft (h : R) (n : nat) (t_n : R) (u v : nat -> R) : res (list fl) :=
  if negb (Rleb 0 h && Rleb h 1) then Panic
  else if Nat.eqb n 0 then Panic
  else if forallb (fun j => Rleb 0 (eigen_re h n j / (2 * INR n))) (seq 0 (length (circulant_row h n))) then
    let s j := sqrt (eigen_re h n j / (2 * INR n)) in
    let x k := s k * u k - eigen_im h n k * v k in
    let y k := s k * v k + eigen_im h n k * u k in
    Ret (map (fun j => Some (dft_re (2 * n) x y j * Rpower (INR n) (- h) * Rpower t_n h)) (seq 1 n))
  else Ret (map (fun _ => None) (seq 1 n)).
