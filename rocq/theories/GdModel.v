(** Model of gradient descent
    (crates/RustQuant_math/src/optimization/gradient_descent.rs), on top of the
    automatic differentiation model.

    Simplifications:
    - [f64] is [R]; the elapsed time and the verbose printing are left out;
    - the objective is a function from a location to its value and gradient, or
      a panic; [ad_objective] is the one the code builds from a graph.  The code
      evaluates the objective a second time on the same graph for its value; the
      objective is an [Fn] without side effects on the values, so both
      evaluations give the same value. *)
From Coq Require Import Reals List Bool.
From Verif Require Import Res InterpModel RList AdModel.
Import ListNotations.
Open Scope R_scope.

(** 82-92 [struct GradientDescent] *)
Record gd := Gd { learning_rate : R; max_iterations : nat; tolerance : option R }.
(** 95-108 [struct GradientDescentResult] *)
Record gd_result := GdResult { minimizer : list R; minimum : R; iterations : nat }.

(** 116-127 [new] *)
Definition gd_new (lr : R) (n : nat) (tol : option R) : res gd :=
  match tol with
  | Some t => assertb (Rltb 0 t) (Ret (Gd lr n tol))
  | None => Ret (Gd lr n tol)
  end.

(** 131-140 [is_stationary], [norm] *)
Definition gd_norm (x : list R) : R := sqrt (rsum (map (fun a => a * a) x)).
Definition is_stationary (gradient : list R) (tol : R) : bool := Rltb (gd_norm gradient) tol.

(** 155: [self.tolerance.unwrap_or(f64::EPSILON.sqrt())] *)
Definition gd_tol (c : gd) : R := match tolerance c with Some t => t | None => sqrt (/ 2 ^ 52) end.

(** 187-191: the update of the minimizer, [iter_mut().zip(&gradient)] *)
Fixpoint update (lr : R) (x g : list R) : list R :=
  match x, g with
  | a :: x', b :: g' => (a - lr * b) :: update lr x' g'
  | _, _ => x
  end.

(** 164-213: the loop, [left] iterations to go, [k] done *)
Fixpoint gd_loop (f : list R -> res (R * list R)) (lr tol : R) (left k : nat) (r : gd_result) : res gd_result :=
  match left with
  | O => Ret r
  | S left' =>
      let! (v, g) := f (minimizer r) in
      if is_stationary g tol then Ret (GdResult (minimizer r) (minimum r) (S k))
      else gd_loop f lr tol left' (S k) (GdResult (update lr (minimizer r) g) v (S k))
  end.

(** 148-217 [optimize] *)
Definition optimize (c : gd) (f : list R -> res (R * list R)) (x0 : list R) : res gd_result :=
  gd_loop f (learning_rate c) (gd_tol c) (max_iterations c) 0 (GdResult x0 0 0).

(** [vars.iter().map(|v| wrt(v))], gradient.rs 43-60 *)
Fixpoint wrt_all (adj : list R) (vs : list var) : res (list R) :=
  match vs with
  | [] => Ret []
  | v :: vs' => let! d := wrt adj v in let! r := wrt_all adj vs' in Ret (d :: r)
  end.

(** 169-173: the value and gradient of an objective whose body, applied to the
    location variables, runs the operations [body] and returns the last
    variable *)
Definition ad_objective (body : list instr) (x : list R) : res (R * list R) :=
  let! (g, vs) := exec ([], []) (map ILeaf x ++ body) in
  let! out := unwrap (nth_error vs (length x + length body - 1)) in
  let! adj := accumulate g out in
  let! gr := wrt_all adj (firstn (length x) vs) in
  Ret (value out, gr).
