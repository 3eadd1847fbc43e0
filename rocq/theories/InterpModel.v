(** Model of interpolation (RustQuant_math/src/interpolation) and of curves
    (RustQuant_data/src/curves.rs).

    Simplifications:
    - [f64] and the [Date]/[Time] index types are real numbers (a date is its
      day number); integer and decimal index types are not modelled; NaN does
      not occur, so [partial_cmp(..).unwrap()] never panics;
    - [slice::partition_point(pred)] is the length of the longest prefix that
      satisfies the predicate: the same index on the sorted vectors used here;
    - [slice::binary_search_by] is the first index holding an equal element.
      The Rust contract allows any such index, so theorems about queries at
      abscissae require these to be distinct;
    - [sort_by] is insertion sort (stable, as [sort_by] is). *)
From Coq Require Import Reals List Bool ZArith.
From Verif Require Import Res.
Import ListNotations.
Open Scope R_scope.

Definition Rltb (a b : R) : bool := if Rlt_dec a b then true else false.
Definition Rleb (a b : R) : bool := if Rle_dec a b then true else false.
Definition Reqb (a b : R) : bool := if Req_EM_T a b then true else false.

(** [slice::partition_point] *)
Fixpoint partition_point {A} (p : A -> bool) (l : list A) : nat :=
  match l with [] => 0%nat | a :: l' => if p a then S (partition_point p l') else 0%nat end.
(** [Vec::insert]; panics beyond the length *)
Fixpoint vec_insert {A} (i : nat) (a : A) (l : list A) : res (list A) :=
  match i, l with
  | O, _ => Ret (a :: l)
  | S i', b :: l' => let! r := vec_insert i' a l' in Ret (b :: r)
  | S _, [] => Panic
  end.
(** [slice::binary_search_by(.. cmp point)] *)
Fixpoint find_index (p : R) (l : list R) : option nat :=
  match l with
  | [] => None
  | a :: l' => if Reqb a p then Some 0%nat else match find_index p l' with Some i => Some (S i) | None => None end
  end.
(** [slice[i]] *)
Definition index {A} (l : list A) (i : nat) : res A := unwrap (nth_error l i).

(** [tmp.sort_by(|a, b| a.0.partial_cmp(&b.0))], stable *)
Fixpoint insert_pt (p : R * R) (l : list (R * R)) : list (R * R) :=
  match l with
  | [] => [p]
  | q :: l' => if Rleb (fst p) (fst q) then p :: l else q :: insert_pt p l'
  end.
Fixpoint sort_pts (l : list (R * R)) : list (R * R) :=
  match l with [] => [] | p :: l' => insert_pt p (sort_pts l') end.

(** linear_interpolator.rs 19-31, exponential_interpolator.rs 21-33 (without
    the [fitted] flag, which nothing reads) *)
Record interp := Interp { xs : list R; ys : list R }.

(** linear_interpolator.rs 51-73, exponential_interpolator.rs 54-75: [None] is
    [Err(UnequalLength)] *)
Definition interp_new (xs ys : list R) : option interp :=
  if Nat.eqb (length xs) (length ys)
  then let t := sort_pts (combine xs ys) in Some (Interp (map fst t) (map snd t))
  else None.

(** linear_interpolator.rs 84-86 [range]: panics when empty *)
Definition range (t : interp) : res (R * R) :=
  let! a := unwrap (hd_error (xs t)) in
  let! b := unwrap (hd_error (rev (xs t))) in Ret (a, b).

(** linear_interpolator.rs 88-92, exponential_interpolator.rs 91-96 [add_point] *)
Definition add_point (t : interp) (p : R * R) : res interp :=
  let idx := partition_point (fun x => Rltb x (fst p)) (xs t) in
  let! xs' := vec_insert idx (fst p) (xs t) in
  let! ys' := vec_insert idx (snd p) (ys t) in
  Ret (Interp xs' ys').

Inductive method := Linear | Exponential.
(** the segment formula. Linear: linear_interpolator.rs 116-119;
    exponential: exponential_interpolator.rs 160-163 ([powf] of a positive
    base is [Rpower]) *)
Definition segment (m : method) (x_l x_r y_l y_r p : R) : R :=
  match m with
  | Linear => y_l + (y_r - y_l) * ((p - x_l) / (x_r - x_l))
  | Exponential => Rpower y_r ((p - x_l) / (x_r - x_l)) * Rpower y_l ((x_r - p) / (x_r - x_l))
  end.

(** linear_interpolator.rs 94-122, exponential_interpolator.rs 98-166
    [interpolate]: [None] is [Err(OutsideOfRange)] *)
Definition interpolate (m : method) (t : interp) (p : R) : res (option R) :=
  let! r := range t in
  if Rltb p (fst r) || Rltb (snd r) p then Ret None else
  match find_index p (xs t) with
  | Some i => let! y := index (ys t) i in Ret (Some y)
  | None =>
      let idx_r := partition_point (fun x => Rltb x p) (xs t) in
      match idx_r with
      | O => Panic                       (* idx_r - 1 underflows *)
      | S idx_l =>
          let! x_l := index (xs t) idx_l in
          let! x_r := index (xs t) idx_r in
          let! y_l := index (ys t) idx_l in
          let! y_r := index (ys t) idx_r in
          Ret (Some (segment m x_l x_r y_l y_r p))
      end
  end.

(** The same code at an integer index and value type ([i8] .. [usize]):
    [/] truncates. Only the segment formula differs; overflow is not modelled. *)
Definition segment_int (x_l x_r y_l y_r p : Z) : Z :=
  (y_l + (y_r - y_l) * (Z.quot (p - x_l) (x_r - x_l)))%Z.

(** ** B-splines, b_splines.rs *)

(** b_splines.rs 19-35 *)
Record bspline := BSpline { knots : list R; control_points : list R; degree : nat }.

Fixpoint insert_R (a : R) (l : list R) : list R :=
  match l with [] => [a] | b :: l' => if Rleb a b then a :: l else b :: insert_R a l' end.
Fixpoint sort_R (l : list R) : list R := match l with [] => [] | a :: l' => insert_R a (sort_R l') end.

(** 54-75 [new]: [None] is [Err(BSplineInvalidParameters)] *)
Definition bspline_new (ks cps : list R) (d : nat) : option bspline :=
  if Nat.eqb (length ks) (length cps + d + 1) then Some (BSpline (sort_R ks) cps d) else None.

(** 78-104 [cox_de_boor]; indexing panics out of bounds *)
Fixpoint cox_de_boor (ks : list R) (x : R) (i d : nat) : res R :=
  match d with
  | O =>
      let! a := index ks i in
      let! b := index ks (i + 1) in
      Ret (if Rleb a x && Rltb x b then 1 else 0)
  | S d' =>
      let! kid := index ks (i + d) in
      let! ki := index ks i in
      let! lt := if Reqb kid ki then Ret 0
                   else let! c := cox_de_boor ks x i d' in Ret ((x - ki) / (kid - ki) * c) in
      let! kid1 := index ks (i + d + 1) in
      let! ki1 := index ks (i + 1) in
      let! rt := if Reqb kid1 ki1 then Ret 0
                    else let! c := cox_de_boor ks x (i + 1) d' in Ret ((kid1 - x) / (kid1 - ki1) * c) in
      Ret (lt + rt)
  end.

(** 120-125 [add_point] *)
Definition bspline_add_point (s : bspline) (p : R * R) : res bspline :=
  let idx := partition_point (fun x => Rltb x (fst p)) (knots s) in
  let! ks := vec_insert idx (fst p) (knots s) in
  Ret (BSpline ks (control_points s ++ [snd p]) (degree s)).

(** 142-145: the loop over [control_points.iter().enumerate()] *)
Fixpoint bs_sum (ks : list R) (x : R) (d i : nat) (cps : list R) (v : R) : res R :=
  match cps with
  | [] => Ret v
  | c :: cps' => let! b := cox_de_boor ks x i d in bs_sum ks x d (S i) cps' (v + b * c)
  end.
(** 127-148 [interpolate]: [None] is [Err(BSplineOutsideOfRange)] *)
Definition bspline_interpolate (s : bspline) (x : R) : res (option R) :=
  let! lo := index (knots s) (degree s) in
  let! hi := index (knots s) (length (knots s) - degree s - 1) in
  if negb (Rleb lo x && Rleb x hi) then Ret None
  else let! v := bs_sum (knots s) x (degree s) 0 (control_points s) 0 in Ret (Some v).

(** ** Curves, RustQuant_data/src/curves.rs

    [BTreeMap<Date, f64>] is a list of (day number, rate) in increasing order
    of the key. *)
Definition nodes := list (Z * R).

(** [BTreeMap::get], [BTreeMap::insert] *)
Fixpoint node_get (n : nodes) (d : Z) : option R :=
  match n with
  | [] => None
  | (k, v) :: n' => if Z.eqb k d then Some v else node_get n' d
  end.
Fixpoint node_insert (n : nodes) (d : Z) (r : R) : nodes :=
  match n with
  | [] => [(d, r)]
  | (k, v) :: n' =>
      if Z.ltb d k then (d, r) :: n
      else if Z.eqb d k then (k, r) :: n'
      else (k, v) :: node_insert n' d r
  end.

(** curves.rs 82-99 [Curve] (curve type and NSS parameters play no role here) *)
Record curve := Curve { cnodes : nodes; cmethod : method; cinterp : interp }.

Definition of_pairs (l : nodes) : nodes := fold_left (fun n p => node_insert n (fst p) (snd p)) l [].

(** 106-135 [new]; [None] is the error of unequal lengths. Only the two
    implemented methods are modelled: the others are [todo!()]. *)
Definition curve_new (dates : list Z) (rates : list R) (m : method) : option curve :=
  match interp_new (map IZR dates) rates with
  | None => None
  | Some t => Some (Curve (of_pairs (combine dates rates)) m t)
  end.
(** 138-167 [from_nodes] *)
Definition curve_from_nodes (n : nodes) (m : method) : option curve :=
  match interp_new (map IZR (map fst n)) (map snd n) with
  | None => None
  | Some t => Some (Curve n m t)
  end.
(** 175-180 [get_rate] *)
Definition get_rate (c : curve) (d : Z) : res (option R) :=
  match node_get (cnodes c) d with
  | Some r => Ret (Some r)
  | None => interpolate (cmethod c) (cinterp c) (IZR d)
  end.
(** 183-192 [get_rate_and_insert] *)
Definition get_rate_and_insert (c : curve) (d : Z) : res (curve * option R) :=
  match node_get (cnodes c) d with
  | Some r => Ret (c, Some r)
  | None =>
      let! o := interpolate (cmethod c) (cinterp c) (IZR d) in
      Ret (match o with
           | None => (c, None)
           | Some r => (Curve (node_insert (cnodes c) d r) (cmethod c) (cinterp c), Some r)
           end)
  end.
(** 208-210 [set_rate], 213-217 [set_rates] *)
Definition set_rate (c : curve) (d : Z) (r : R) : curve :=
  Curve (node_insert (cnodes c) d r) (cmethod c) (cinterp c).
Definition set_rates (c : curve) (l : list (Z * R)) : curve :=
  fold_left (fun c p => set_rate c (fst p) (snd p)) l c.
(** 220-257 *)
Definition first_date (c : curve) : option Z := option_map fst (hd_error (cnodes c)).
Definition last_date (c : curve) : option Z := option_map fst (hd_error (rev (cnodes c))).
Definition first_rate (c : curve) : option R := option_map snd (hd_error (cnodes c)).
Definition last_rate (c : curve) : option R := option_map snd (hd_error (rev (cnodes c))).
Definition curve_len (c : curve) : nat := length (cnodes c).
(** 260-275 [get_brackets] *)
Definition get_brackets (c : curve) (d : Z) : res (Z * Z) :=
  let! first := unwrap (first_date c) in
  let! last := unwrap (last_date c) in
  if Z.leb d first then Ret (first, first)
  else if Z.geb d last then Ret (last, last)
  else
    let! l := unwrap (hd_error (rev (filter (fun p => Z.ltb (fst p) d) (cnodes c)))) in
    let! r := unwrap (hd_error (filter (fun p => Z.leb d (fst p)) (cnodes c))) in
    Ret (fst l, fst r).
(** 278-282 [shift] *)
Definition shift (c : curve) (s : R) : curve :=
  Curve (map (fun p => (fst p, snd p + s)) (cnodes c)) (cmethod c) (cinterp c).
