(** Model of reverse-mode automatic differentiation ([RustQuant_autodiff]).

    Sources (crates/RustQuant_autodiff/src): vertex.rs, graph.rs,
    accumulate.rs, gradient.rs, overload.rs.

    Simplifications, for the whole file:
    - [f64] is [R]; where the code stores NaN ([asin] outside (-1,1)) or an
      infinity the model stores some real number, and the theorems exclude the
      point through the domain predicates of [AdSpec];
    - one graph at a time: the [Variable::graph] pointer is left out, so the
      [assert!(ptr::eq(..))] same-graph checks always succeed;
    - [RefCell<Vec<Vertex>>] is a list threaded through the operations. *)
From Coq Require Import Reals List ZArith Lia.
From Verif Require Import Res SpecialFns.
Import ListNotations.
Open Scope R_scope.

(** vertex.rs 19-25 [struct Vertex] *)
Record vertex := Vertex { part0 : R; part1 : R; par0 : nat; par1 : nat }.
(** graph.rs 29-32 [struct Graph] *)
Definition tape := list vertex.
(** variable.rs 30-37 [struct Variable], without the graph pointer *)
Record var := Var { value : R; index : nat }.

(** ** graph.rs *)

(** graph.rs 125-185 [Graph::push] for [Arity::Nullary], [Unary], [Binary];
    the second component is the returned index *)
Definition push_nullary (g : tape) : tape * nat :=
  (g ++ [Vertex 0 0 (length g) (length g)], length g).
Definition push_unary (g : tape) (parent : nat) (partial : R) : tape * nat :=
  (g ++ [Vertex partial 0 parent (length g)], length g).
Definition push_binary (g : tape) (a b : nat) (p q : R) : tape * nat :=
  (g ++ [Vertex p q a b], length g).

(** graph.rs 77-83 [Graph::var] *)
Definition graph_var (g : tape) (x : R) : tape * var :=
  let '(g', i) := push_nullary g in (g', Var x i).
(** graph.rs 88-90 [Graph::vars] *)
Fixpoint graph_vars (g : tape) (xs : list R) : tape * list var :=
  match xs with
  | [] => (g, [])
  | x :: xs' =>
      let '(g1, v) := graph_var g x in
      let '(g2, vs) := graph_vars g1 xs' in (g2, v :: vs)
  end.
(** graph.rs 67-73 [Graph::join] *)
Definition graph_join (g h : tape) : tape := g ++ h.
(** graph.rs 106-108 [Graph::clear] *)
Definition graph_clear (g : tape) : tape := [].
(** graph.rs 112-117 [Graph::zero] *)
Definition graph_zero (g : tape) : tape :=
  map (fun v => Vertex 0 0 (par0 v) (par1 v)) g.

Definition mk1 (g : tape) (x : var) (val partial : R) : tape * var :=
  let '(g', i) := push_unary g (index x) partial in (g', Var val i).
Definition mk2 (g : tape) (a b : nat) (val p q : R) : tape * var :=
  let '(g', i) := push_binary g a b p q in (g', Var val i).

(** ** accumulate.rs *)

(** [adjoints[i] += d]: an index outside the vector panics *)
Fixpoint add_at (i : nat) (d : R) (l : list R) : res (list R) :=
  match l, i with
  | [], _ => Panic
  | a :: l', O => Ret (a + d :: l')
  | a :: l', S i' => let! l'' := add_at i' d l' in Ret (a :: l'')
  end.
(** [adjoints[i] = d] *)
Fixpoint set_at (i : nat) (d : R) (l : list R) : res (list R) :=
  match l, i with
  | [], _ => Panic
  | _ :: l', O => Ret (d :: l')
  | a :: l', S i' => let! l'' := set_at i' d l' in Ret (a :: l'')
  end.
(** [adjoints[i]] *)
Fixpoint get_at (i : nat) (l : list R) : res R :=
  match l, i with
  | [], _ => Panic
  | a :: _, O => Ret a
  | _ :: l', S i' => get_at i' l'
  end.

(** accumulate.rs 43-47: one iteration of the backward loop, for the vertex at
    [idx] *)
Definition back_step (idx : nat) (v : vertex) (adj : list R) : res (list R) :=
  let! deriv := get_at idx adj in
  let! adj1 := add_at (par0 v) (part0 v * deriv) adj in
  add_at (par1 v) (part1 v * deriv) adj1.

(** accumulate.rs 43: [iter().enumerate().rev()], as recursion on the number
    [n] of vertices still to visit (indices n-1, ..., 0) *)
Fixpoint back_loop (n : nat) (g : tape) (adj : list R) : res (list R) :=
  match n with
  | O => Ret adj
  | S n' =>
      let! v := unwrap (nth_error g n') in
      let! adj' := back_step n' v adj in
      back_loop n' g adj'
  end.

(** accumulate.rs 34-51 [Variable::accumulate] *)
Definition accumulate (g : tape) (out : var) : res (list R) :=
  let! adj := set_at (index out) 1 (repeat 0 (length g)) in
  back_loop (length g) g adj.

(** gradient.rs 36-41 [wrt] *)
Definition wrt (adj : list R) (x : var) : res R := get_at (index x) adj.

(** ** overload.rs: operators *)

(** 69-79 *)
Definition add_vv (g : tape) (x y : var) : tape * var :=
  mk2 g (index x) (index y) (value x + value y) 1 1.
(** 101-109 *)
Definition add_vf (g : tape) (x : var) (c : R) : tape * var :=
  mk2 g (index x) (index x) (value x + c) 1 0.
(** 131-133 *)
Definition add_fv (g : tape) (c : R) (y : var) : tape * var := add_vf g y c.
(** 1282-1294 *)
Definition mul_vv (g : tape) (x y : var) : tape * var :=
  mk2 g (index x) (index y) (value x * value y) (value y) (value x).
(** 1316-1324 *)
Definition mul_vf (g : tape) (x : var) (c : R) : tape * var :=
  mk2 g (index x) (index x) (value x * c) c 0.
(** 1346-1348 *)
Definition mul_fv (g : tape) (c : R) (y : var) : tape * var := mul_vf g y c.
(** 259-261 [neg] *)
Definition neg_v (g : tape) (x : var) : tape * var := mul_vf g x (-1).
(** 1609-1613 *)
Definition sub_vv (g : tape) (x y : var) : tape * var :=
  let '(g1, z) := neg_v g y in add_vv g1 x z.
(** 1635-1637 *)
Definition sub_vf (g : tape) (x : var) (c : R) : tape * var := add_vf g x (- c).
(** 1659-1667 *)
Definition sub_fv (g : tape) (c : R) (y : var) : tape * var :=
  mk2 g (index y) (index y) (c - value y) 0 (-1).
(** 792-802 [recip] *)
Definition recip_v (g : tape) (x : var) : tape * var :=
  mk1 g x (/ value x) (- / (value x ^ 2)).
(** 187-191 *)
Definition div_vv (g : tape) (x y : var) : tape * var :=
  let '(g1, z) := recip_v g y in mul_vv g1 x z.
(** 214-216 *)
Definition div_vf (g : tape) (x : var) (c : R) : tape * var := mul_vf g x (/ c).
(** 238-248 *)
Definition div_fv (g : tape) (c : R) (y : var) : tape * var :=
  mk2 g (index y) (index y) (c / value y) 0 (- c / (value y * value y)).

(** ** overload.rs: unary functions *)

(** mathematical functions behind the [f64] methods of the same name *)
Definition signum (x : R) : R := if Rlt_dec x 0 then -1 else 1.
Definition acosh (x : R) : R := ln (x + sqrt (x ^ 2 - 1)).
Definition asinh (x : R) : R := ln (x + sqrt (x ^ 2 + 1)).
Definition atanh (x : R) : R := / 2 * ln ((1 + x) / (1 - x)).
Definition cbrt (x : R) : R :=
  if Rlt_dec 0 x then Rpower x (1 / 3)
  else if Rlt_dec x 0 then - Rpower (- x) (1 / 3) else 0.

(** 291-299 *)
Definition abs_v (g : tape) (x : var) := mk1 g x (Rabs (value x)) (signum (value x)).
(** 317-327 *)
Definition acos_v (g : tape) (x : var) :=
  mk1 g x (acos (value x)) (- / sqrt (1 - value x ^ 2)).
(** 345-355 *)
Definition acosh_v (g : tape) (x : var) :=
  mk1 g x (acosh (value x)) (/ (sqrt (value x - 1) * sqrt (value x + 1))).
(** 375-389; the NaN branch is the number 0 here *)
Definition asin_v (g : tape) (x : var) :=
  mk1 g x (asin (value x))
    (if Rlt_dec (-1) (value x) then
       if Rlt_dec (value x) 1 then / sqrt (1 - value x ^ 2) else 0
     else 0).
(** 408-418 *)
Definition asinh_v (g : tape) (x : var) :=
  mk1 g x (asinh (value x)) (/ sqrt (1 + value x ^ 2)).
(** 437-447 *)
Definition atan_v (g : tape) (x : var) :=
  mk1 g x (atan (value x)) (/ (1 + value x ^ 2)).
(** 467-477 *)
Definition atanh_v (g : tape) (x : var) :=
  mk1 g x (atanh (value x)) (/ (1 - value x ^ 2)).
(** 497-507 *)
Definition cbrt_v (g : tape) (x : var) :=
  mk1 g x (cbrt (value x)) (/ (3 * Rpower (value x) (2 / 3))).
(** 527-536 *)
Definition cos_v (g : tape) (x : var) := mk1 g x (cos (value x)) (- sin (value x)).
(** 556-564 *)
Definition cosh_v (g : tape) (x : var) := mk1 g x (cosh (value x)) (sinh (value x)).
(** 583-591 *)
Definition exp_v (g : tape) (x : var) := mk1 g x (exp (value x)) (exp (value x)).
(** 611-621 *)
Definition exp2_v (g : tape) (x : var) :=
  mk1 g x (Rpower 2 (value x)) (Rpower 2 (value x) * ln 2).
(** 641-650 *)
Definition exp_m1_v (g : tape) (x : var) :=
  mk1 g x (exp (value x) - 1) (exp (value x)).
(** 669-677 *)
Definition ln_v (g : tape) (x : var) := mk1 g x (ln (value x)) (/ value x).
(** 697-705 *)
Definition ln_1p_v (g : tape) (x : var) := mk1 g x (ln (1 + value x)) (/ (1 + value x)).
(** 725-733 *)
Definition log10_v (g : tape) (x : var) := mk1 g x (ln (value x) / ln 10) (/ value x).
(** 753-761 *)
Definition log2_v (g : tape) (x : var) := mk1 g x (ln (value x) / ln 2) (/ value x).
(** 822-830 *)
Definition sin_v (g : tape) (x : var) := mk1 g x (sin (value x)) (cos (value x)).
(** 850-858 *)
Definition sinh_v (g : tape) (x : var) := mk1 g x (sinh (value x)) (cosh (value x)).
(** 877-887 *)
Definition sqrt_v (g : tape) (x : var) := mk1 g x (sqrt (value x)) (/ (2 * sqrt (value x))).
(** 907-917 *)
Definition tan_v (g : tape) (x : var) := mk1 g x (tan (value x)) (/ (cos (value x) ^ 2)).
(** 937-947 *)
Definition tanh_v (g : tape) (x : var) := mk1 g x (tanh (value x)) (/ (cosh (value x) ^ 2)).
(** 1511-1523 *)
Definition erf_v (g : tape) (x : var) :=
  mk1 g x (erf (value x)) (2 * exp (- (value x ^ 2)) / sqrt PI).
(** 1543-1555 *)
Definition erfc_v (g : tape) (x : var) :=
  mk1 g x (erfc (value x)) (- (2 * exp (- (value x ^ 2))) / sqrt PI).

(** ** overload.rs: two-argument functions *)

(** [f64::log(x, base)] *)
Definition flog (x b : R) : R := ln x / ln b.

(** 1026-1039 *)
Definition log_vv (g : tape) (x b : var) :=
  mk2 g (index x) (index b) (flog (value x) (value b))
    (- ln (value x) / (value b * ln (value b) ^ 2)) (1 / (value x * ln (value b))).
(** 1050-1063 *)
Definition log_fv (g : tape) (c : R) (b : var) :=
  mk2 g (index b) (index b) (flog c (value b)) (- ln c / (value b * ln (value b) ^ 2)) 0.
(** 1074-1084 *)
Definition log_vf (g : tape) (x : var) (c : R) :=
  mk2 g (index x) (index x) (flog (value x) c) 0 (1 / (ln c * value x)).

Definition ind_lt (a b : R) : R := if Rlt_dec a b then 1 else 0.

(** 1105-1120 *)
Definition min_vv (g : tape) (x y : var) :=
  mk2 g (index x) (index y) (Rmin (value x) (value y))
    (ind_lt (value x) (value y)) (ind_lt (value y) (value x)).
(** 1128-1138 *)
Definition min_vf (g : tape) (x : var) (c : R) :=
  mk2 g (index x) (index x) (Rmin (value x) c) (ind_lt (value x) c) 0.
(** 1146-1156 *)
Definition min_fv (g : tape) (c : R) (y : var) :=
  mk2 g (index y) (index y) (Rmin c (value y)) 0 (ind_lt c (value y)).
(** 1177-1192 *)
Definition max_vv (g : tape) (x y : var) :=
  mk2 g (index x) (index y) (Rmax (value x) (value y))
    (ind_lt (value y) (value x)) (ind_lt (value x) (value y)).
(** 1200-1210 *)
Definition max_vf (g : tape) (x : var) (c : R) :=
  mk2 g (index x) (index x) (Rmax (value x) c) (ind_lt c (value x)) 0.
(** 1218-1228 *)
Definition max_fv (g : tape) (c : R) (y : var) :=
  mk2 g (index y) (index y) (Rmax c (value y)) 0 (ind_lt (value y) c).

(** 1368-1383; [powf] is modelled by [Rpower], right for a positive base *)
Definition powf_vv (g : tape) (x y : var) :=
  mk2 g (index x) (index y) (Rpower (value x) (value y))
    (value y * Rpower (value x) (value y - 1)) (Rpower (value x) (value y) * ln (value x)).
(** 1391-1401 *)
Definition powf_vf (g : tape) (x : var) (n : R) :=
  mk2 g (index x) (index x) (Rpower (value x) n) (n * Rpower (value x) (n - 1)) 0.
(** 1409-1419 *)
Definition powf_fv (g : tape) (c : R) (y : var) :=
  mk2 g (index y) (index y) (Rpower c (value y)) 0 (value y * Rpower c (value y - 1)).
(** 1436-1451 *)
Definition powi_vv (g : tape) (x y : var) :=
  mk2 g (index x) (index y) (Rpower (value x) (value y))
    (value y * Rpower (value x) (value y - 1)) (Rpower (value x) (value y) * ln (value x)).
(** 1459-1469 *)
Definition powi_vi (g : tape) (x : var) (n : Z) :=
  mk2 g (index x) (index x) (powerRZ (value x) n) (IZR n * powerRZ (value x) (n - 1)) 0.
(** 1477-1487 *)
Definition powi_fv (g : tape) (c : R) (y : var) :=
  mk2 g (index y) (index y) (Rpower c (value y)) 0 (value y * Rpower c (value y - 1)).

(** [Iterator::reduce] with an operator that also pushes on the tape *)
Fixpoint reduce_from (op : tape -> var -> var -> tape * var) (g : tape) (acc : var)
    (l : list var) : tape * var :=
  match l with
  | [] => (g, acc)
  | x :: l' => let '(g', z) := op g acc x in reduce_from op g' z l'
  end.
(** 971-974 [Sum::sum] *)
Definition sum_v (g : tape) (l : list var) : res (tape * var) :=
  match l with [] => Panic | x :: l' => Ret (reduce_from add_vv g x l') end.
(** 999-1002 [Product::product] *)
Definition product_v (g : tape) (l : list var) : res (tape * var) :=
  match l with [] => Panic | x :: l' => Ret (reduce_from mul_vv g x l') end.

(** ** User programs

    A user program is a straight-line sequence of calls; instruction number [k]
    produces variable number [k], and refers to earlier variables by number. *)
Inductive uop :=
| Neg | Abs | Acos | Acosh | Asin | Asinh | Atan | Atanh | Cbrt | Cos | Cosh
| Exp | Exp2 | ExpM1 | Ln | Ln1p | Log10 | Log2 | Recip | Sin | Sinh | Sqrt
| Tan | Tanh | Erf | Erfc.
Inductive bop := Add | Sub | Mul | Div | Log | Min | Max | Powf | Powi.
Inductive vfop := VAdd | VSub | VMul | VDiv | VLog | VMin | VMax | VPowf.

Inductive instr :=
| ILeaf (x : R)                       (* graph.var(x) *)
| IUn (o : uop) (i : nat)
| IBin (o : bop) (i j : nat)          (* Variable op Variable *)
| IVF (o : vfop) (i : nat) (c : R)    (* Variable op f64 *)
| IFV (o : bop) (c : R) (i : nat)     (* f64 op Variable *)
| IPowi (i : nat) (n : Z)             (* Variable.powi(i32) *)
| ISum (l : list nat)
| IProd (l : list nat).

Definition un_v (o : uop) : tape -> var -> tape * var :=
  match o with
  | Neg => neg_v | Abs => abs_v | Acos => acos_v | Acosh => acosh_v
  | Asin => asin_v | Asinh => asinh_v | Atan => atan_v | Atanh => atanh_v
  | Cbrt => cbrt_v | Cos => cos_v | Cosh => cosh_v | Exp => exp_v
  | Exp2 => exp2_v | ExpM1 => exp_m1_v | Ln => ln_v | Ln1p => ln_1p_v
  | Log10 => log10_v | Log2 => log2_v | Recip => recip_v | Sin => sin_v
  | Sinh => sinh_v | Sqrt => sqrt_v | Tan => tan_v | Tanh => tanh_v
  | Erf => erf_v | Erfc => erfc_v
  end.
Definition bin_v (o : bop) : tape -> var -> var -> tape * var :=
  match o with
  | Add => add_vv | Sub => sub_vv | Mul => mul_vv | Div => div_vv
  | Log => log_vv | Min => min_vv | Max => max_vv | Powf => powf_vv | Powi => powi_vv
  end.
Definition vf_v (o : vfop) : tape -> var -> R -> tape * var :=
  match o with
  | VAdd => add_vf | VSub => sub_vf | VMul => mul_vf | VDiv => div_vf
  | VLog => log_vf | VMin => min_vf | VMax => max_vf | VPowf => powf_vf
  end.
Definition fv_v (o : bop) : tape -> R -> var -> tape * var :=
  match o with
  | Add => add_fv | Sub => sub_fv | Mul => mul_fv | Div => div_fv
  | Log => log_fv | Min => min_fv | Max => max_fv | Powf => powf_fv | Powi => powi_fv
  end.

Fixpoint lookups (vs : list var) (l : list nat) : res (list var) :=
  match l with
  | [] => Ret []
  | i :: l' =>
      let! v := unwrap (nth_error vs i) in
      let! r := lookups vs l' in Ret (v :: r)
  end.

Definition exec_instr (st : tape * list var) (i : instr) : res (tape * list var) :=
  let '(g, vs) := st in
  let! (g', v) :=
    match i with
    | ILeaf x => Ret (graph_var g x)
    | IUn o a => let! x := unwrap (nth_error vs a) in Ret (un_v o g x)
    | IBin o a b =>
        let! x := unwrap (nth_error vs a) in
        let! y := unwrap (nth_error vs b) in Ret (bin_v o g x y)
    | IVF o a c => let! x := unwrap (nth_error vs a) in Ret (vf_v o g x c)
    | IFV o c b => let! y := unwrap (nth_error vs b) in Ret (fv_v o g c y)
    | IPowi a n => let! x := unwrap (nth_error vs a) in Ret (powi_vi g x n)
    | ISum l => let! xs := lookups vs l in sum_v g xs
    | IProd l => let! xs := lookups vs l in product_v g xs
    end in
  Ret (g', vs ++ [v]).

Fixpoint exec (st : tape * list var) (p : list instr) : res (tape * list var) :=
  match p with
  | [] => Ret st
  | i :: p' => let! st' := exec_instr st i in exec st' p'
  end.

(** the user's call: build the program on a fresh graph, accumulate from
    variable [k], read the derivative with respect to variable [j] *)
Definition gradient (p : list instr) (k j : nat) : res R :=
  let! (g, vs) := exec ([], []) p in
  let! out := unwrap (nth_error vs k) in
  let! x := unwrap (nth_error vs j) in
  let! adj := accumulate g out in
  wrt adj x.
