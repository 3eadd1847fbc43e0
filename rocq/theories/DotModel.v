(** Model of the DOT export of a computation graph
    (crates/RustQuant_autodiff/src/graphviz.rs).

    Simplifications: as in [AdModel]; [{}] of a [usize] is its decimal numeral; [{:.2}]
    and [{:.2?}] of an [f64] are functions given as parameters; the [HashSet] of
    variable indices is used only for membership, and is a list.  Strings are UTF-8
    bytes. *)
From Coq Require Import Reals List String Ascii Decimal DecimalString Nat.
From Verif Require Import Res AdModel.
Import ListNotations.
Local Open Scope string_scope.

Definition nl : string := String "010" "".
Definition tab : string := String "009" "".
Definition quote : string := String "034" "".
(** [{}] of a [usize] *)
Definition show (n : nat) : string := NilZero.string_of_uint (Nat.to_uint n).

Section Dot.
Variables show2 show2_debug : R -> string.
(** graphviz.rs 39-41 *)
Definition header : string :=
  "digraph Graph {" ++ nl ++ tab ++ "bgcolor=" ++ quote ++ "transparent" ++ quote ++ ";" ++ nl ++ tab ++ "rankdir=" ++ quote ++ "LR" ++ quote ++ ";" ++ nl ++ tab ++ "node [shape=box3d];" ++ nl.
(** graphviz.rs 49-60: the line of one vertex *)
Definition node_line (vars : list var) (i : nat) : res string :=
  if existsb (fun v => Nat.eqb (index v) i) vars then
    let! v := unwrap (find (fun v => Nat.eqb (index v) i) vars) in
    Ret (tab ++ show i ++ " [label=" ++ quote ++ "Input: x_" ++ show i ++ ", Value: " ++ show2 (value v) ++ quote ++ ", color=" ++ quote ++ "red" ++ quote ++ "];" ++ nl)
  else Ret (tab ++ show i ++ " [label=" ++ quote ++ "Op: #" ++ show i ++ quote ++ "];" ++ nl).
(** graphviz.rs 48-61: the loop over the vertices from index [i] on *)
Fixpoint node_lines (vars : list var) (i : nat) (g : tape) (dot : string) : res string :=
  match g with
  | [] => Ret dot
  | _ :: g' => let! l := node_line vars i in node_lines vars (S i) g' (dot ++ l)
  end.
(** graphviz.rs 65-75: one parent of one vertex *)
Definition edge_line (i k parent : nat) (partial : R) : string :=
  if Nat.eqb parent i then "" else tab ++ show parent ++ " -> " ++ show i ++ " [label=" ++ quote ++ "∂_" ++ show k ++ ": " ++ show2_debug partial ++ quote ++ "];" ++ nl.
(** graphviz.rs 64-76 *)
Fixpoint edge_lines (i : nat) (g : tape) (dot : string) : string :=
  match g with
  | [] => dot
  | v :: g' => edge_lines (S i) g' ((dot ++ edge_line i 0 (par0 v) (part0 v)) ++ edge_line i 1 (par1 v) (part1 v))
  end.
(** graphviz.rs 38-81 [graphviz] *)
Definition graphviz (g : tape) (vars : list var) : res string :=
  let! dot := node_lines vars 0 g header in
  Ret (edge_lines 0 g dot ++ ("}" ++ nl)).
End Dot.
