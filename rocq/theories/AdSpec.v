(** What the automatic differentiation API should compute, without any tape:
    the values of a program as real functions of its leaves. *)
From Coq Require Import Reals List ZArith.
From Coquelicot Require Import Coquelicot.
From Verif Require Import SpecialFns AdModel.
Import ListNotations.
Open Scope R_scope.

(** mathematical meaning of each operation *)
Definition sem_un (o : uop) (x : R) : R :=
  match o with
  | Neg => - x | Abs => Rabs x | Acos => acos x | Acosh => acosh x
  | Asin => asin x | Asinh => asinh x | Atan => atan x | Atanh => atanh x
  | Cbrt => cbrt x | Cos => cos x | Cosh => cosh x | Exp => exp x
  | Exp2 => Rpower 2 x | ExpM1 => exp x - 1 | Ln => ln x | Ln1p => ln (1 + x)
  | Log10 => ln x / ln 10 | Log2 => ln x / ln 2 | Recip => / x | Sin => sin x
  | Sinh => sinh x | Sqrt => sqrt x | Tan => tan x | Tanh => tanh x
  | Erf => erf x | Erfc => erfc x
  end.
Definition sem_bin (o : bop) (x y : R) : R :=
  match o with
  | Add => x + y | Sub => x - y | Mul => x * y | Div => x / y
  | Log => ln x / ln y | Min => Rmin x y | Max => Rmax x y
  | Powf | Powi => Rpower x y
  end.
Definition vf_bin (o : vfop) : bop :=
  match o with
  | VAdd => Add | VSub => Sub | VMul => Mul | VDiv => Div | VLog => Log
  | VMin => Min | VMax => Max | VPowf => Powf
  end.

(** open sets on which the operations are differentiable *)
Definition dom_un (o : uop) (x : R) : Prop :=
  match o with
  | Abs | Recip => x <> 0
  | Acos | Asin | Atanh => -1 < x < 1
  | Acosh => 1 < x
  | Cbrt | Ln | Log10 | Log2 | Sqrt => 0 < x
  | Ln1p => -1 < x
  | Tan => cos x <> 0
  | Neg | Asinh | Atan | Cos | Cosh | Exp | Exp2 | ExpM1 | Sin | Sinh | Tanh
  | Erf | Erfc => True
  end.
Definition dom_bin (o : bop) (x y : R) : Prop :=
  match o with
  | Add | Sub | Mul => True
  | Div => y <> 0
  | Log => 0 < x /\ 0 < y /\ y <> 1
  | Min | Max => x <> y
  | Powf | Powi => 0 < x
  end.

(** value of one instruction from the values of the earlier variables *)
Definition at_ (env : list R) (i : nat) : R := nth i env 0.
Definition sem_instr (env : list R) (i : instr) : R :=
  match i with
  | ILeaf x => x
  | IUn o a => sem_un o (at_ env a)
  | IBin o a b => sem_bin o (at_ env a) (at_ env b)
  | IVF o a c => sem_bin (vf_bin o) (at_ env a) c
  | IFV o c b => sem_bin o c (at_ env b)
  | IPowi a n => powerRZ (at_ env a) n
  | ISum l => fold_right Rplus 0 (map (at_ env) l)
  | IProd l => fold_right Rmult 1 (map (at_ env) l)
  end.
Definition sem (p : list instr) : list R :=
  fold_left (fun env i => env ++ [sem_instr env i]) p [].

(** a program a user can write: arguments are earlier variables, and iterator
    sums and products are not empty *)
Definition refs (i : instr) : list nat :=
  match i with
  | ILeaf _ => []
  | IUn _ a | IVF _ a _ | IFV _ _ a | IPowi a _ => [a]
  | IBin _ a b => [a; b]
  | ISum l | IProd l => l
  end.
Definition nonempty_fold (i : instr) : Prop :=
  match i with ISum l | IProd l => l <> [] | _ => True end.
Definition well_formed (p : list instr) : Prop :=
  forall k i, nth_error p k = Some i ->
    nonempty_fold i /\ forall a, In a (refs i) -> (a < k)%nat.

(** every call is made at a point where the operation is differentiable *)
Definition dom_instr (env : list R) (i : instr) : Prop :=
  match i with
  | ILeaf _ | ISum _ | IProd _ => True
  | IUn o a => dom_un o (at_ env a)
  | IBin o a b => dom_bin o (at_ env a) (at_ env b)
  | IVF o a c => dom_bin (vf_bin o) (at_ env a) c
  | IFV o c b => dom_bin o c (at_ env b)
  | IPowi a n => (0 < n)%Z \/ at_ env a <> 0
  end.
Definition in_domain (p : list instr) : Prop :=
  forall i, In i p -> dom_instr (sem p) i.

(** the calls whose recorded partial derivatives are wrong in the code *)
Definition faulty (i : instr) : bool :=
  match i with
  | IUn Log10 _ | IUn Log2 _ | IBin Log _ _ => true
  | IFV Min _ _ | IFV Max _ _ | IFV Powf _ _ | IFV Powi _ _ => true
  | _ => false
  end.

(** a sum or product over a single variable returns that very variable, not a
    new one *)
Definition aliases (i : instr) : Prop :=
  match i with ISum [_] | IProd [_] => True | _ => False end.

(** program [p] with variable [j] replaced by a fresh input of value [t] *)
Definition set_leaf (j : nat) (t : R) (p : list instr) : list instr :=
  firstn j p ++ ILeaf t :: skipn (S j) p.

(** value of variable [k] as a function of variable [j] *)
Definition value_of (p : list instr) (k j : nat) : R -> R :=
  fun t => nth k (sem (set_leaf j t p)) 0.
