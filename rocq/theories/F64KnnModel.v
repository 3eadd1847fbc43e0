(** The nearest-neighbour classifier in binary64: crates/RustQuant_ml/src/k_nearest_neighbors.rs 65-145.
    A matrix is its list of rows.  nalgebra's [metric_distance] and [LpNorm] are written out; [powi] and
    [powf] are parameters.  The hash map of counts is a function. *)
From Coq Require Import ZArith List Bool.
From Flocq Require Import IEEE754.BinarySingleNaN.
From Verif Require Import Res F64Model F64RootModel.
Import ListNotations.

(** 43-53 *)
Inductive metric64 := Euclidean64 | Manhattan64 | Minkowski64 (p : Z).
(** 26-39 *)
Record knn64 := Knn64 { kx64 : list (list f64); ky64 : list f64; km64 : metric64 }.
(** 65-69 *)
Definition knn_new64 (x : list (list f64)) (y : list f64) (m : metric64) : res knn64 :=
  assertb (Nat.eqb (length x) (length y)) (Ret (Knn64 x y m)).

(** nalgebra [EuclideanNorm::metric_distance]: the fold of the squared differences, from 0.0 *)
Definition sq_dist64 (a b : list f64) : f64 :=
  fold_left (fun acc ab => fadd acc (sq64 (fsub (fst ab) (snd ab)))) (combine a b) zero.
Section Powers.
  Variables (powi64 : f64 -> Z -> f64) (powf64 : f64 -> f64 -> f64).
  (** nalgebra [LpNorm::metric_distance] *)
  Definition lp_sum64 (p : Z) (a b : list f64) : f64 :=
    fold_left (fun acc ab => fadd acc (powi64 (fabs (fsub (fst ab) (snd ab))) p)) (combine a b) zero.
  (** 127-139 *)
  Definition distance64 (m : metric64) (a b : list f64) : f64 :=
    match m with
    | Euclidean64 => fsqrt (sq_dist64 a b)
    | Manhattan64 => powf64 (lp_sum64 1 a b) (fdiv one (lit 1 0))
    | Minkowski64 p => powf64 (lp_sum64 p a b) (fdiv one (lit p 0))
    end.

  (** 143: a stable sort that panics when a comparison fails, modelled by insertion *)
  Fixpoint kinsert (e : nat * f64) (l : list (nat * f64)) : res (list (nat * f64)) :=
    match l with
    | [] => Ret [e]
    | h :: t => let! c := unwrap (fcmp (snd e) (snd h)) in
        match c with Gt => let! r := kinsert e t in Ret (h :: r) | _ => Ret (e :: l) end
    end.
  Fixpoint ksort (l : list (nat * f64)) : res (list (nat * f64)) :=
    match l with [] => Ret [] | e :: t => let! r := ksort t in kinsert e r end.
  (** 119-145 *)
  Definition distances64 (c : knn64) (q : list f64) : list (nat * f64) :=
    map (fun i => (i, distance64 (km64 c) (nth i (kx64 c) []) q)) (seq 0 (length (kx64 c))).
  Definition neighbors64 (c : knn64) (q : list f64) (k : nat) : res (list (nat * f64)) :=
    let! s := ksort (distances64 c q) in Ret (firstn k s).

  (** [val as i64]: towards zero, saturating, NaN is 0 (88) *)
  Definition class64 (x : f64) : Z :=
    match x with
    | B754_infinity s => if s then (- 2 ^ 63)%Z else (2 ^ 63 - 1)%Z
    | _ => Z.max (- 2 ^ 63) (Z.min (2 ^ 63 - 1) (Btrunc x))
    end.
  (** 82-91: [max_by_key] computes each key once, in order, and keeps the last of several maxima *)
  Definition bump64 (c : Z -> nat) (z : Z) : Z -> nat := fun w => if Z.eqb w z then S (c w) else c w.
  Fixpoint vote64 (cs : list f64) (c : Z -> nat) (best : option (f64 * nat)) : option f64 :=
    match cs with
    | [] => option_map fst best
    | v :: r =>
        let c' := bump64 c (class64 v) in
        let n := c' (class64 v) in
        vote64 r c' (match best with Some (b, m) => if Nat.ltb n m then Some (b, m) else Some (v, n) | None => Some (v, n) end)
    end.
  (** 74-93: [self.y[i]] panics out of range *)
  Fixpoint labels64 (y : list f64) (l : list (nat * f64)) : res (list f64) :=
    match l with [] => Ret [] | e :: t => let! v := unwrap (nth_error y (fst e)) in let! vs := labels64 y t in Ret (v :: vs) end.
  Definition predict_one64 (c : knn64) (q : list f64) (k : nat) : res f64 :=
    let! l := neighbors64 c q k in
    let! classes := labels64 (ky64 c) l in
    unwrap (vote64 classes (fun _ => O) None).
  (** 103-113, without the assertion that the numbers of columns agree *)
  Fixpoint predict64 (c : knn64) (qs : list (list f64)) (k : nat) : res (list f64) :=
    match qs with [] => Ret [] | q :: r => let! v := predict_one64 c q k in let! vs := predict64 c r k in Ret (v :: vs) end.
End Powers.
