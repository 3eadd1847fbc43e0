(** Option payoffs and the Monte-Carlo price in binary64 (crates/RustQuant_instruments/src/options
    and src/monte_carlo_pricer.rs).  [exp] and [powf] are external: their results are parameters. *)
From Coq Require Import ZArith List Bool.
From Flocq Require Import Core.Zaux IEEE754.BinarySingleNaN.
From Verif Require Import Res PayoffModel F64Model.
Import ListNotations.

(** [x.max(0.0)] *)
Definition fpos (x : f64) : f64 := fmax x zero.
(** vanilla.rs 49-54 *)
Definition vanilla64 (tf : type_flag) (k s : f64) : f64 := match tf with Call => fpos (fsub s k) | Put => fpos (fsub k s) end.
(** [s.last()] *)
Definition last64 (path : list f64) : option f64 := nth_error path (length path - 1).
(** asian.rs 48-72; [powf] is a parameter; [unwrap_or_default] gives 0.0; the initial values of
    [sum] (0.0 or -0.0) and [product] (1.0) are those of the standard library *)
Definition asian64 (neg : bool) (powf : f64 -> f64 -> f64) (avm : averaging) (sf : option strike_flag) (tf : type_flag) (strike : option f64) (path : list f64) : res f64 :=
  let! terminal := unwrap (last64 path) in
  let! average := match avm with
    | ArithmeticDiscrete => Ret (fdiv (fsum neg path) (of_usize (length path)))
    | GeometricDiscrete => Ret (powf (fold_left fmul path one) (fdiv one (of_usize (length path))))
    | _ => Panic
    end in
  let k := match strike with Some k => k | None => zero end in
  match sf with
  | Some Fixed => Ret (match tf with Call => fpos (fsub average k) | Put => fpos (fsub k average) end)
  | Some Floating => Ret (match tf with Call => fpos (fsub terminal average) | Put => fpos (fsub average terminal) end)
  | None => Panic
  end.
(** barrier.rs 36-92; the [rebate] field is not read *)
Definition barrier64 (bt : barrier_type) (tf : type_flag) (b k : f64) (rebate : option f64) (path : list f64) : res f64 :=
  let! terminal := unwrap (last64 path) in
  let above := existsb (fun x => fle b x) path in
  let below := existsb (fun x => fle x b) path in
  let payoff := match tf with Call => fpos (fsub terminal k) | Put => fpos (fsub k terminal) end in
  Ret (match bt with
       | UpAndOut => if above then zero else payoff
       | DownAndOut => if below then zero else payoff
       | UpAndIn => if above then payoff else zero
       | DownAndIn => if below then payoff else zero
       end).
(** binary.rs 30-53 *)
Definition binary64 (bt : binary_type) (tf : type_flag) (k s : f64) : f64 :=
  match bt, tf with
  | CashOrNothing, Call => if flt k s then k else zero
  | CashOrNothing, Put => if flt s k then k else zero
  | AssetOrNothing, Call => if flt k s then s else zero
  | AssetOrNothing, Put => if flt s k then s else zero
  end.
(** [f64::total_cmp] is not [Greater].  The standard library orders a NaN after or before every
    number, by its sign, which IEEE 754 leaves to the hardware: [nneg] says that it is negative.
    Simplification: all the NaNs of a path have the same sign. *)
Definition tle (nneg : bool) (x y : f64) : bool :=
  if is_nan (if nneg then x else y) then true
  else if is_nan (if nneg then y else x) then false
  else flt x y || (feq x y && (Bsign x || negb (Bsign y))).
(** [max_by(total_cmp)] keeps the last of equals, [min_by] the first *)
Definition tmax (nneg : bool) (path : list f64) : option f64 := match path with [] => None | x :: l => Some (fold_left (fun a b => if tle nneg a b then b else a) l x) end.
Definition tmin (nneg : bool) (path : list f64) : option f64 := match path with [] => None | x :: l => Some (fold_left (fun a b => if tle nneg a b then a else b) l x) end.
(** lookback.rs 30-53 *)
Definition lookback64 (nneg : bool) (sf : option strike_flag) (tf : type_flag) (strike : option f64) (path : list f64) : res f64 :=
  let! terminal := unwrap (last64 path) in
  let s_max := match tmax nneg path with Some x => x | None => terminal end in
  let s_min := match tmin nneg path with Some x => x | None => terminal end in
  match sf with
  | Some Fixed =>
      let! k := unwrap strike in
      Ret (match tf with Call => fpos (fsub s_max k) | Put => fpos (fsub k s_min) end)
  | _ => Ret (match tf with Call => fpos (fsub terminal s_min) | Put => fpos (fsub s_max terminal) end)
  end.
(** supershare.rs 29-34 *)
Definition supershare64 (k1 k2 s : f64) : f64 := if fle k1 s && fle s k2 then fdiv s k1 else zero.

(** monte_carlo_pricer.rs 63-65 [path_independent] *)
Definition path_end64 (path : list f64) : f64 := match last64 path with Some s => s | None => zero end.
(** 50-55: the fold over the simulated paths *)
Fixpoint sum_payoffs64 (payoff : list f64 -> res f64) (acc : f64) (paths : list (list f64)) : res f64 :=
  match paths with
  | [] => Ret acc
  | p :: ps => let! x := payoff p in sum_payoffs64 payoff (fadd acc x) ps
  end.
(** 38-58 [price_monte_carlo] on the generated paths, with the discount factor [df] that [exp]
    returned *)
Definition price_mc64 (payoff : list f64 -> res f64) (paths : list (list f64)) (df : f64) : res f64 :=
  let! s := sum_payoffs64 payoff zero paths in
  Ret (fdiv (fmul df s) (of_usize (length paths))).
