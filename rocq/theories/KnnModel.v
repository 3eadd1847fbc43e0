(** Model of the k-nearest-neighbours classifier
    (crates/RustQuant_ml/src/k_nearest_neighbors.rs).

    Simplifications: [f64] is [R], so distances are never NaN and the [unwrap] of
    [partial_cmp] at line 143 cannot fail.  A matrix is its number of columns and
    its list of rows.  nalgebra's [metric_distance] and [LpNorm] are written out. *)
From Coq Require Import Reals List ZArith.
From Verif Require Import Res InterpModel.
Import ListNotations.
Open Scope R_scope.

(** 43-53; the power of [Minkowski] is at least 1 *)
Inductive metric := Euclidean | Manhattan | Minkowski (p : positive).

Record matrix := { m_cols : nat; m_rows : list (list R) }.
(** 26-39 *)
Record knn := { kx : matrix; ky : list R; kmetric : metric }.

(** 65-69 *)
Definition knn_new (x : matrix) (y : list R) (m : metric) : res knn :=
  assertb (Nat.eqb (length (m_rows x)) (length y))
  (Ret {| kx := x; ky := y; kmetric := m |}).

(** [f64::powf] for a non-negative base and positive exponent *)
Definition powf (a e : R) : R := if Reqb a 0 then 0 else Rpower a e.
(** sum of |a-b|^p over the entries, nalgebra [LpNorm::metric_distance] *)
Definition power_sum (p : nat) (a b : list R) : R :=
  fold_left (fun acc ab => acc + Rabs (fst ab - snd ab) ^ p) (combine a b) 0.
(** 127-139 *)
Definition distance (m : metric) (a b : list R) : R :=
  match m with
  | Euclidean => sqrt (power_sum 2 a b)
  | Manhattan => powf (power_sum 1 a b) (1 / 1)
  | Minkowski p => powf (power_sum (Pos.to_nat p) a b) (1 / IZR (Zpos p))
  end.

(** [slice::sort_by] is a stable sort: equal distances keep their order (143) *)
Fixpoint insert (e : nat * R) (l : list (nat * R)) : list (nat * R) :=
  match l with
  | [] => [e]
  | h :: t => if Rltb (snd h) (snd e) then h :: insert e t else e :: h :: t
  end.
Fixpoint sort_by_distance (l : list (nat * R)) : list (nat * R) :=
  match l with [] => [] | e :: t => insert e (sort_by_distance t) end.

(** 119-145 *)
Definition distances (c : knn) (q : list R) : list (nat * R) :=
  map (fun i => (i, distance (kmetric c) (nth i (m_rows (kx c)) []) q)) (seq 0 (length (m_rows (kx c)))).
Definition find_neighbors (c : knn) (q : list R) (k : nat) : list (nat * R) :=
  firstn k (sort_by_distance (distances c q)).

(** [val as i64]: towards zero, saturating (88) *)
Definition trunc (x : R) : Z := if Rltb x 0 then (- Int_part (- x))%Z else Int_part x.
Definition as_i64 (x : R) : Z := Z.max (- 2 ^ 63) (Z.min (2 ^ 63 - 1) (trunc x)).

(** 82-91: the hash map of running counts, as a function *)
Definition counts := Z -> nat.
Definition bump (c : counts) (z : Z) : counts := fun w => if Z.eqb w z then S (c w) else c w.
(** [Iterator::max_by_key]: the key is computed once per element in order, the
    last of several maximal elements is returned; [best] is the element so far *)
Fixpoint max_by_count (cs : list R) (c : counts) (best : option (R * nat)) : option R :=
  match cs with
  | [] => option_map fst best
  | v :: r =>
      let c' := bump c (as_i64 v) in
      let n := c' (as_i64 v) in
      let best' := match best with
                   | Some (b, m) => if Nat.ltb n m then Some (b, m) else Some (v, n)
                   | None => Some (v, n)
                   end in
      max_by_count r c' best'
  end.

(** 74-93; indexing [y] cannot fail for a classifier made by [knn_new] *)
Definition neighbor_classes (c : knn) (q : list R) (k : nat) : list R :=
  map (fun e => nth (fst e) (ky c) 0) (find_neighbors c q k).
Definition predict_one (c : knn) (q : list R) (k : nat) : res R :=
  unwrap (max_by_count (neighbor_classes c q k) (fun _ => 0%nat) None).

(** 103-113 *)
Fixpoint predict_rows (c : knn) (qs : list (list R)) (k : nat) : res (list R) :=
  match qs with
  | [] => Ret []
  | q :: r => let! v := predict_one c q k in let! vs := predict_rows c r k in Ret (v :: vs)
  end.
Definition predict (c : knn) (x : matrix) (k : nat) : res (list R) :=
  assertb (Nat.eqb (m_cols (kx c)) (m_cols x)) (predict_rows c (m_rows x) k).
