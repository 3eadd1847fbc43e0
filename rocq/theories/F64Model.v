(** Functions of the library on IEEE-754 binary64 numbers, rounding to nearest even, with
    signed zeros, infinities and a NaN.  The other model files use exact real numbers; this
    one keeps the arithmetic of the program.  All NaNs are identified: no function modelled
    here reads the payload of a NaN. *)
From Coq Require Import ZArith List Bool.
From Flocq Require Import Core.Zaux IEEE754.BinarySingleNaN.
From Verif Require Import Res.
Import ListNotations.

(** ** The primitive operations of [f64] *)
#[global] Instance p53 : FLX.Prec_gt_0 53 := eq_refl.
#[global] Instance pe53 : Prec_lt_emax 53 1024 := eq_refl.
Definition f64 : Type := binary_float 53 1024.
Definition nan : f64 := B754_nan.
Definition zero : f64 := B754_zero false.
Definition pinf : f64 := B754_infinity false.
Definition ninf : f64 := B754_infinity true.
Definition fadd (x y : f64) : f64 := Bplus mode_NE x y.
Definition fsub (x y : f64) : f64 := Bminus mode_NE x y.
Definition fmul (x y : f64) : f64 := Bmult mode_NE x y.
Definition fdiv (x y : f64) : f64 := Bdiv mode_NE x y.
Definition fsqrt (x : f64) : f64 := Bsqrt mode_NE x.
Definition ffloor (x : f64) : f64 := Bnearbyint mode_DN x.
Definition fceil (x : f64) : f64 := Bnearbyint mode_UP x.
Definition flt (x y : f64) : bool := Bltb x y.
Definition fle (x y : f64) : bool := Bleb x y.
Definition feq (x y : f64) : bool := Beqb x y.
Definition fcmp (x y : f64) : option comparison := Bcompare x y.
(** [m * 2^e] rounded to nearest *)
Definition lit (m e : Z) : f64 := binary_normalize 53 1024 p53 pe53 mode_NE m e false.
(** [n as f64] for an unsigned integer *)
Definition of_usize (n : nat) : f64 := lit (Z.of_nat n) 0.
Definition one : f64 := lit 1 0.
Definition two : f64 := lit 2 0.
(** [x as usize], saturating *)
Definition as_usize (x : f64) : Z :=
  match x with
  | B754_nan => 0
  | B754_infinity s => if s then 0 else 2 ^ 64 - 1
  | _ => Z.max 0 (Z.min (2 ^ 64 - 1) (Btrunc x))
  end%Z.
(** [num::ToPrimitive::to_usize] *)
Definition to_usize (x : f64) : option Z :=
  match x with
  | B754_nan | B754_infinity _ => None
  | _ => let z := Btrunc x in if (0 <=? z)%Z && (z <? 2 ^ 64)%Z then Some z else None
  end.
(** [f64::min], [f64::max]: a NaN operand is ignored.  Which zero is returned for two zeros of
    different sign is not specified; here the first operand. *)
Definition fmin (a b : f64) : f64 := if is_nan a then b else if is_nan b then a else if flt b a then b else a.
Definition fmax (a b : f64) : f64 := if is_nan a then b else if is_nan b then a else if flt a b then b else a.
(** [Iterator::sum::<f64>]: from the left.  The initial value is 0.0 or -0.0, depending on the
    version of the standard library. *)
Definition fsum (neg : bool) (l : list f64) : f64 := fold_left fadd l (B754_zero neg).
(** [sort_by(|a, b| a.partial_cmp(b).unwrap())]: stable, panics when a comparison fails.  The
    standard library's merge sort is modelled by insertion. *)
Fixpoint finsert (x : f64) (l : list f64) : res (list f64) :=
  match l with
  | [] => Ret [x]
  | y :: l' => let! c := unwrap (fcmp x y) in
      match c with Gt => let! r := finsert x l' in Ret (y :: r) | _ => Ret (x :: l) end
  end.
Fixpoint fsort (l : list f64) : res (list f64) :=
  match l with [] => Ret [] | x :: l' => let! r := fsort l' in finsert x r end.
Definition findex (l : list f64) (i : nat) : res f64 := unwrap (nth_error l i).
Definition nonempty (l : list f64) : bool := negb (length l =? 0)%nat.

Section Stat.
  (** the initial value of sums *)
  Variable neg : bool.
  (** statistic.rs 84-88 (and 78-82) *)
  Definition mean64 (l : list f64) : res f64 := assertb (nonempty l) (Ret (fdiv (fsum neg l) (of_usize (length l)))).
  (** [powi(2)]: one multiplication *)
  Definition sq64 (x : f64) : f64 := fmul x x.
  (** 108-113, 115-120; [len - 1] cannot underflow after the assertion *)
  Definition sample_variance64 (l : list f64) : res f64 := assertb (nonempty l) (
    let! mu := mean64 l in Ret (fdiv (fsum neg (map (fun x => sq64 (fsub x mu)) l)) (of_usize (length l - 1)))).
  Definition population_variance64 (l : list f64) : res f64 := assertb (nonempty l) (
    let! mu := mean64 l in Ret (fdiv (fsum neg (map (fun x => sq64 (fsub x mu)) l)) (of_usize (length l)))).
  (** 122-132 *)
  Definition standard_deviation64 (l : list f64) : res f64 := assertb (1 <? length l)%nat (rmap fsqrt (sample_variance64 l)).
  (** 140-159 *)
  Definition covariance64 (l k : list f64) : res f64 := assertb (length l =? length k)%nat (assertb (1 <? length l)%nat (
    let n := of_usize (length l) in let mx := fdiv (fsum neg l) n in let my := fdiv (fsum neg k) n in
    Ret (fdiv (fsum neg (map (fun p => fmul (fsub (fst p) mx) (fsub (snd p) my)) (combine l k))) (fsub n one)))).
  (** 161-172 *)
  Definition correlation64 (l k : list f64) : res f64 :=
    let! c := covariance64 l k in let! sx := standard_deviation64 l in let! sy := standard_deviation64 k in
    assertb (negb (feq sx zero || feq sy zero)) (Ret (fdiv c (fmul sx sy))).
End Stat.
(** 207-211, 213-217 *)
Definition vmin64 (l : list f64) : res f64 := assertb (nonempty l) (Ret (fold_left fmin l pinf)).
Definition vmax64 (l : list f64) : res f64 := assertb (nonempty l) (Ret (fold_left fmax l ninf)).
(** 279-283 *)
Definition range64 (l : list f64) : res f64 := assertb (nonempty l) (let! a := vmax64 l in let! b := vmin64 l in Ret (fsub a b)).
(** 219-231 *)
Definition median64 (l : list f64) : res f64 := assertb (nonempty l) (
  let! s := fsort l in let mid := (length s / 2)%nat in
  if (length s mod 2 =? 0)%nat then let! a := findex s (mid - 1) in let! b := findex s mid in Ret (fdiv (fadd a b) two) else findex s mid).
(** 233-248 and, identically, 250-265 *)
Definition quantile64 (l : list f64) (q : f64) : res f64 := assertb (nonempty l) (assertb (fle zero q && fle q one) (
  let! s := fsort l in let index := fmul q (of_usize (length s - 1)) in
  let! lower := findex s (Z.to_nat (as_usize (ffloor index))) in
  let! upper := findex s (Z.to_nat (as_usize (fceil index))) in
  Ret (fadd lower (fmul (fsub upper lower) (fsub index (ffloor index)))))).
(** 267-277 *)
Definition iqr64 (l : list f64) : res f64 := assertb (nonempty l) (
  let! s := fsort l in let! q1 := findex s (length s / 4) in let! q3 := findex s (length s * 3 / 4) in Ret (fsub q3 q1)).

(** ** sequences.rs for [T = f64] *)
(** 36-46 [seq]: the capacity must fit in [isize::MAX] bytes; exhausting the memory is not modelled *)
Fixpoint seq64_loop (fuel : nat) (x end_ step : f64) : res (list f64) :=
  if fle x end_ then match fuel with O => NoFuel | S fuel' => let! r := seq64_loop fuel' (fadd x step) end_ step in Ret (x :: r) end else Ret [].
Definition seq64 (fuel : nat) (start end_ step : f64) : res (list f64) :=
  let! n := unwrap (to_usize (fdiv (fsub end_ start) step)) in
  assertb (n * 8 <? 2 ^ 63)%Z (seq64_loop fuel start end_ step).
(** 52-65 [linspace] *)
Definition linspace64 (start end_ : f64) (n : nat) : res (list f64) := assertb (flt start end_ && (0 <? n)%nat) (
  let step := fdiv (fsub end_ start) (of_usize (n - 1)) in Ret (map (fun i => fadd start (fmul (of_usize i) step)) (seq 0 n))).
(** 71-81 [cumsum] *)
Fixpoint cumsum64_from (acc : f64) (l : list f64) : list f64 :=
  match l with [] => [] | x :: l' => let a := fadd acc x in a :: cumsum64_from a l' end.
Definition cumsum64 (l : list f64) : list f64 := cumsum64_from zero l.

(** ** interpolation/linear_interpolator.rs for [f64] indices and values: 94-122.
    The binary search is modelled by the first match: on strictly sorted abscissae there is at most one. *)
Fixpoint find64 (p : f64) (l : list f64) : res (option nat) :=
  match l with
  | [] => Ret None
  | a :: l' => let! c := unwrap (fcmp a p) in
      match c with Eq => Ret (Some 0%nat) | _ => rmap (option_map S) (find64 p l') end
  end.
Fixpoint ppoint64 (p : f64) (l : list f64) : nat := match l with [] => 0%nat | a :: l' => if flt a p then S (ppoint64 p l') else 0%nat end.
Definition segment64 (x_l x_r y_l y_r p : f64) : f64 := fadd y_l (fmul (fsub y_r y_l) (fdiv (fsub p x_l) (fsub x_r x_l))).
Definition interpolate64 (xs ys : list f64) (p : f64) : res (option f64) :=
  let! lo := unwrap (hd_error xs) in let! hi := unwrap (nth_error xs (length xs - 1)) in
  let! a := unwrap (fcmp p lo) in let! b := unwrap (fcmp p hi) in
  match a, b with
  | Lt, _ | _, Gt => Ret None
  | _, _ =>
    let! f := find64 p xs in
    match f with
    | Some i => let! y := findex ys i in Ret (Some y)
    | None =>
        match ppoint64 p xs with
        | O => Panic
        | S i => let! x_l := findex xs i in let! x_r := findex xs (S i) in let! y_l := findex ys i in let! y_r := findex ys (S i) in
                 Ret (Some (segment64 x_l x_r y_l y_r p))
        end
    end
  end.

(** ** Sums over positions and cash flows *)
(** RustQuant_portfolios lib.rs 135-138: the value of a position with a [u64] quantity *)
Definition position_value64 (q : N) (price : f64) : f64 := fmul (lit (Z.of_N q) 0) price.
(** 166-170: the sum in the order of the map's iterator, which differs between runs *)
Definition portfolio_value64 (neg : bool) (l : list (N * f64)) : f64 := fsum neg (map (fun p => position_value64 (fst p) (snd p)) l).
