(** Reverse accumulation (crates/RustQuant_autodiff/src: vertex.rs, graph.rs, accumulate.rs,
    gradient.rs and the arithmetic of overload.rs) in binary64 arithmetic.  The graph pointer of
    a variable is left out, as in [AdModel]. *)
From Coq Require Import ZArith List Bool.
From Flocq Require Import Core.Zaux IEEE754.BinarySingleNaN.
From Verif Require Import Res F64Model F64RootModel.
Import ListNotations.

(** vertex.rs 19-25 *)
Record vertex64 := Vertex64 { fp0 : f64; fp1 : f64; fq0 : nat; fq1 : nat }.
(** graph.rs 29-32 *)
Definition tape64 := list vertex64.
(** variable.rs 30-37 *)
Record var64 := Var64 { fvalue : f64; findex64 : nat }.

(** graph.rs 125-185 [Graph::push] *)
Definition push64 (g : tape64) (p q : f64) (a b : nat) (v : f64) : tape64 * var64 := (g ++ [Vertex64 p q a b], Var64 v (length g)).
Definition unary64 (g : tape64) (x : var64) (v p : f64) : tape64 * var64 := push64 g p zero (findex64 x) (length g) v.
(** graph.rs 77-83 *)
Definition var64_new (g : tape64) (x : f64) : tape64 * var64 := push64 g zero zero (length g) (length g) x.

(** overload.rs 69-79, 101-109, 1282-1294, 1316-1324, 877-887 *)
Definition add_vv64 (g : tape64) (x y : var64) := push64 g one one (findex64 x) (findex64 y) (fadd (fvalue x) (fvalue y)).
Definition add_vf64 (g : tape64) (x : var64) (c : f64) := push64 g one zero (findex64 x) (findex64 x) (fadd (fvalue x) c).
Definition mul_vv64 (g : tape64) (x y : var64) := push64 g (fvalue y) (fvalue x) (findex64 x) (findex64 y) (fmul (fvalue x) (fvalue y)).
Definition mul_vf64 (g : tape64) (x : var64) (c : f64) := push64 g c zero (findex64 x) (findex64 x) (fmul (fvalue x) c).
Definition sqrt_v64 (g : tape64) (x : var64) := unary64 g x (fsqrt (fvalue x)) (fdiv one (fmul two (fsqrt (fvalue x)))).

(** overload.rs 113-134, 1328-1353: the operands are swapped *)
Definition add_fv64 (g : tape64) (c : f64) (y : var64) := add_vf64 g y c.
Definition mul_fv64 (g : tape64) (c : f64) (y : var64) := mul_vf64 g y c.
(** overload.rs 255-262, 1609-1613, 1635-1637, 1659-1667 *)
Definition neg_v64 (g : tape64) (x : var64) := mul_vf64 g x (fneg one).
Definition sub_vv64 (g : tape64) (x y : var64) := let '(g1, z) := neg_v64 g y in add_vv64 g1 x z.
Definition sub_vf64 (g : tape64) (x : var64) (c : f64) := add_vf64 g x (fneg c).
Definition sub_fv64 (g : tape64) (c : f64) (y : var64) := push64 g zero (fneg one) (findex64 y) (findex64 y) (fsub c (fvalue y)).
(** overload.rs 792-802; [powi(2)] is one multiplication *)
Definition recip_v64 (g : tape64) (x : var64) := unary64 g x (fdiv one (fvalue x)) (fneg (fdiv one (fmul (fvalue x) (fvalue x)))).
(** overload.rs 186-190, 214-216, 237-247 *)
Definition div_vv64 (g : tape64) (x y : var64) := let '(g1, z) := recip_v64 g y in mul_vv64 g1 x z.
Definition div_vf64 (g : tape64) (x : var64) (c : f64) := mul_vf64 g x (fdiv one c).
Definition div_fv64 (g : tape64) (c : f64) (y : var64) :=
  push64 g zero (fdiv (fneg c) (fmul (fvalue y) (fvalue y))) (findex64 y) (findex64 y) (fdiv c (fvalue y)).

(** A user program over these operations: instruction number [k] makes variable number [k], and
    names earlier variables by number. *)
Inductive op64 := OAdd | OSub | OMul | ODiv.
Inductive ins64 := INew (c : f64) | INeg (i : nat) | IRecip (i : nat) | ISqrt (i : nat)
  | IVV (o : op64) (i j : nat) | IVF (o : op64) (i : nat) (c : f64) | IFV (o : op64) (c : f64) (j : nat).
Definition vv64 (o : op64) := match o with OAdd => add_vv64 | OSub => sub_vv64 | OMul => mul_vv64 | ODiv => div_vv64 end.
Definition vf64 (o : op64) := match o with OAdd => add_vf64 | OSub => sub_vf64 | OMul => mul_vf64 | ODiv => div_vf64 end.
Definition fv64 (o : op64) := match o with OAdd => add_fv64 | OSub => sub_fv64 | OMul => mul_fv64 | ODiv => div_fv64 end.
(** a number that names no variable is not a program: the model answers [Panic] *)
Definition run1 (g : tape64) (vs : list var64) (i : ins64) : res (tape64 * var64) :=
  let get k := unwrap (nth_error vs k) in
  match i with
  | INew c => Ret (var64_new g c)
  | INeg k => let! x := get k in Ret (neg_v64 g x)
  | IRecip k => let! x := get k in Ret (recip_v64 g x)
  | ISqrt k => let! x := get k in Ret (sqrt_v64 g x)
  | IVV o k l => let! x := get k in let! y := get l in Ret (vv64 o g x y)
  | IVF o k c => let! x := get k in Ret (vf64 o g x c)
  | IFV o c l => let! y := get l in Ret (fv64 o g c y)
  end.
Fixpoint run64 (p : list ins64) (g : tape64) (vs : list var64) : res (tape64 * list var64) :=
  match p with
  | [] => Ret (g, vs)
  | i :: p' => let! r := run1 g vs i in run64 p' (fst r) (vs ++ [snd r])
  end.

(** [adjoints[i] += d], [adjoints[i] = d], [adjoints[i]]: an index outside the vector panics *)
Fixpoint add_at64 (i : nat) (d : f64) (l : list f64) : res (list f64) :=
  match l, i with
  | [], _ => Panic
  | a :: l', O => Ret (fadd a d :: l')
  | a :: l', S i' => let! l'' := add_at64 i' d l' in Ret (a :: l'')
  end.
Fixpoint set_at64 (i : nat) (d : f64) (l : list f64) : res (list f64) :=
  match l, i with
  | [], _ => Panic
  | _ :: l', O => Ret (d :: l')
  | a :: l', S i' => let! l'' := set_at64 i' d l' in Ret (a :: l'')
  end.

(** accumulate.rs 43-47: the loop body *)
Definition back_step64 (idx : nat) (v : vertex64) (adj : list f64) : res (list f64) :=
  let! deriv := unwrap (nth_error adj idx) in
  let! adj1 := add_at64 (fq0 v) (fmul (fp0 v) deriv) adj in
  add_at64 (fq1 v) (fmul (fp1 v) deriv) adj1.
(** accumulate.rs 43: [iter().enumerate().rev()] *)
Fixpoint back_loop64 (n : nat) (g : tape64) (adj : list f64) : res (list f64) :=
  match n with
  | O => Ret adj
  | S n' =>
      let! v := unwrap (nth_error g n') in
      let! adj' := back_step64 n' v adj in
      back_loop64 n' g adj'
  end.
(** accumulate.rs 34-51 *)
Definition accumulate64 (g : tape64) (out : var64) : res (list f64) :=
  let! adj := set_at64 (findex64 out) one (repeat zero (length g)) in
  back_loop64 (length g) g adj.
(** gradient.rs 36-41 *)
Definition wrt64 (adj : list f64) (x : var64) : res f64 := unwrap (nth_error adj (findex64 x)).
