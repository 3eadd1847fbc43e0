(** Model of the root finders (RustQuant_math/src/rootfinding).

    Simplifications: [f64] is [R]. The objective (and derivative) is any total
    function. [f64::EPSILON] is 2^-52, written [/ IZR (2^52)]. A [0.0/0.0] in
    the Newton step is the only division that can fail: it makes the iterate
    NaN, every later comparison is then false (for an objective that maps NaN
    to NaN) and the loop runs to exhaustion, which returns [0.0]; the model
    returns that value at once. The loops are bounded by [MAX_ITERATIONS] in
    the code itself; [fuel] only makes the recursion structural, and the
    theorems hold for every [fuel >= 1000], for which it never runs out. *)
From Coq Require Import Reals List Bool ZArith.
From Verif Require Import Res InterpModel.
Open Scope R_scope.

Definition eps : R := / IZR (2 ^ 52).
(** rootfinder.rs 19 [MAX_ITERATIONS] *)
Definition max_iterations : Z := 1000.

(** rootfinder.rs 36-57 [RootfinderData] as given by the caller *)
Record rdata := RData {
  stepsize : R; accuracy : R; ilo : R; ihi : R; enforced : bool }.

(** rootfinder.rs 100-109 [enforce_bounds] *)
Definition enforce_bounds (d : rdata) (x : R) : R :=
  if enforced d && Rltb x (ilo d) then ilo d
  else if enforced d && Rltb (ihi d) x then ihi d
  else x.

(** rootfinder.rs 117-126 [nrsign] *)
Definition nrsign (a b : R) : R :=
  let t1 := if Rleb 0 a then a else - a in
  let t2 := if Rleb 0 a then - a else a in
  if Rleb 0 b then t1 else t2.

(** rootfinder.rs 128-143 [close] *)
Definition close (x y : R) : bool :=
  if Reqb x y then true else
  let diff := Rabs (x - y) in
  let tolerance := 42 * eps in
  if Reqb (x * y) 0 then Rltb diff (tolerance ^ 2)
  else Rleb diff (tolerance * Rabs x) && Rleb diff (tolerance * Rabs y).

(** the private bracket fields of [RootfinderData] *)
Record bracket := Bracket { x_min : R; x_max : R; y_min : R; y_max : R }.

(** ** bisection.rs 48-77 [solve_impl] *)

(** 62-76: the loop *)
Fixpoint bisect_loop (fuel : nat) (f : R -> R) (acc : R) (count : Z) (root dx : R) : res R :=
  match fuel with
  | O => NoFuel
  | S fuel' =>
      if (count <=? max_iterations)%Z then
        let dx := dx / 2 in
        let x_mid := root + dx in
        let f_mid := f x_mid in
        let root := if Rleb f_mid 0 then x_mid else root in
        if Rltb (Rabs dx) acc || close f_mid 0 then Ret root
        else bisect_loop fuel' f acc (count + 1) root dx
      else Ret 0
  end.
Definition bisection_impl (fuel : nat) (f : R -> R) (acc : R) (b : bracket) (count : Z) : res R :=
  if Rltb (y_min b) 0
  then bisect_loop fuel f acc count (x_min b) (x_max b - x_min b)
  else bisect_loop fuel f acc count (x_max b) (x_min b - x_max b).

(** ** newton_raphson.rs 53-110 [solve_impl] *)

(** 78-109: the loop; [root], its value and derivative, the oriented bracket,
    the last two steps *)
Fixpoint newton_loop (fuel : nat) (f g : R -> R) (acc : R) (count : Z)
    (root froot dfroot xl xh dx dxold : R) : res R :=
  match fuel with
  | O => NoFuel
  | S fuel' =>
      if (count <=? max_iterations)%Z then
        let check_1 := (root - xh) * dfroot - froot in
        let check_2 := (root - xl) * dfroot - froot in
        let check_3 := Rltb (Rabs (dxold * dfroot)) (Rabs (2 * froot)) in
        let next (dx dxold root : R) :=
          if Rltb (Rabs dx) acc then Ret root
          else
            let froot := f root in
            let dfroot := g root in
            if Rltb froot 0
            then newton_loop fuel' f g acc (count + 1) root froot dfroot root xh dx dxold
            else newton_loop fuel' f g acc (count + 1) root froot dfroot xl root dx dxold in
        if Rltb 0 (check_1 * check_2) || check_3
        then next ((xh - xl) / 2) dx (xl + (xh - xl) / 2)
        else if Reqb dfroot 0 then Ret 0     (* 0/0: NaN until exhaustion, then 0.0 *)
        else next (froot / dfroot) dx (root - froot / dfroot)
      else Ret 0
  end.
Definition newton_impl (fuel : nat) (f g : R -> R) (acc : R) (b : bracket) (count : Z) : res R :=
  let root := / 2 * (x_max b + x_min b) in
  let xl := if Rltb (y_min b) 0 then x_min b else x_max b in
  let xh := if Rltb (y_min b) 0 then x_max b else x_min b in
  newton_loop fuel f g acc (count + 1) root (f root) (g root) xl xh (x_max b - x_min b) (x_max b - x_min b).

(** ** brent.rs 48-145 [solve_impl] *)

(** 94-131: the next step [d] and the one before [e] *)
Definition brent_step (root froot x_mid x_acc1 d e : R) (b : bracket) : R * R :=
  if Rleb x_acc1 (Rabs e) && Rltb (Rabs froot) (y_min b) then
    let s := froot / y_min b in
    let '(p, q) :=
      if close (x_min b) (x_max b) then (2 * x_mid * s, 1 - s)
      else
        let q := y_min b / y_max b in
        let r := froot / y_max b in
        (s * (2 * x_mid * q * (q - r) - (root - x_min b) * (r - 1)), (q - 1) * (r - 1) * (s - 1)) in
    let q := if Rltb 0 p then - q else q in
    let p := Rabs p in
    let min1 := 3 * x_mid * q - Rabs (x_acc1 * q) in
    let min2 := Rabs (e * q) in
    let ternary := if Rltb min1 min2 then min1 else min2 in
    if Rltb (2 * p) ternary then (p / q, d) else (x_mid, x_mid)
  else (x_mid, x_mid).

(** 66-144: the loop *)
Fixpoint brent_loop (fuel : nat) (f : R -> R) (acc : R) (count : Z)
    (root froot d e : R) (b : bracket) : res R :=
  match fuel with
  | O => NoFuel
  | S fuel' =>
      if (count <=? max_iterations)%Z then
        (* 67-72 *)
        let same := (Rltb 0 froot && Rltb 0 (y_max b)) || (Rltb froot 0 && Rltb (y_max b) 0) in
        let e := if same then root - x_min b else e in
        let d := if same then e else d in
        let b := if same then Bracket (x_min b) (x_min b) (y_min b) (y_min b) else b in
        (* 74-84 *)
        let swap := Rltb (Rabs (y_max b)) (Rabs froot) in
        let '(root, froot, b) :=
          if swap then (x_max b, y_max b, Bracket root root froot froot) else (root, froot, b) in
        (* 86-92 *)
        let x_acc1 := 2 * eps * Rabs root + / 2 * acc in
        let x_mid := / 2 * (x_max b - root) in
        if Rleb (Rabs x_mid) x_acc1 || close froot 0 then Ret root
        else
          let '(d, e) := brent_step root froot x_mid x_acc1 d e b in
          (* 133-142 *)
          let root' := if Rltb x_acc1 (Rabs d) then root + d else root + nrsign x_acc1 x_mid in
          brent_loop fuel' f acc (count + 1) root' (f root') d e (Bracket root (x_max b) froot (y_max b))
      else Ret 0
  end.
Definition brent_impl (fuel : nat) (f : R -> R) (acc : R) (b : bracket) (count : Z) : res R :=
  brent_loop fuel f acc count (x_max b) (y_max b) 0 0 b.

(** ** [solve]: bisection.rs 79-153, brent.rs 147-221, newton_raphson.rs 112-186
    (the same text); the flag is [flipflop == -1] *)

Definition growth_factor : R := 8 / 5.
Fixpoint solve_loop (fuel : nat) (f : R -> R) (impl : R -> bracket -> Z -> res R) (dt : rdata) (acc : R)
    (count : Z) (flip : bool) (b : bracket) : res R :=
  match fuel with
  | O => NoFuel
  | S fuel' =>
      if (count <=? max_iterations)%Z then
        if Rleb (y_min b * y_max b) 0 then
          if close (y_min b) 0 then Ret (x_min b)
          else if close (y_max b) 0 then Ret (x_max b)
          else impl acc b count
        else
          let lower := enforce_bounds dt (x_min b + growth_factor * (x_min b - x_max b)) in
          let upper := enforce_bounds dt (x_max b + growth_factor * (x_max b - x_min b)) in
          let b_lower := Bracket lower (x_max b) (f lower) (y_max b) in
          let b_upper := Bracket (x_min b) upper (y_min b) (f upper) in
          if Rltb (Rabs (y_min b)) (Rabs (y_max b))
          then solve_loop fuel' f impl dt acc (count + 1) flip b_lower
          else if Rltb (Rabs (y_max b)) (Rabs (y_min b))
          then solve_loop fuel' f impl dt acc (count + 1) flip b_upper
          else if flip
          then solve_loop fuel' f impl dt acc (count + 2) false b_lower
          else solve_loop fuel' f impl dt acc (count + 1) true b_upper
      else Ret 0
  end.

Definition solve (fuel : nat) (f : R -> R) (impl : R -> bracket -> Z -> res R) (guess : R) (dt : rdata) : res R :=
  assertb (Rltb 0 (accuracy dt)) (
  let acc := Rmax (accuracy dt) eps in
  let y := f guess in
  if close y 0 then Ret guess
  else
    let b := if Rltb 0 y
      then let x := enforce_bounds dt (guess - stepsize dt) in Bracket x guess (f x) y
      else let x := enforce_bounds dt (guess + stepsize dt) in Bracket guess x y (f x) in
    solve_loop fuel f impl dt acc 2 true b).

Definition bisection (fuel : nat) (f : R -> R) := solve fuel f (bisection_impl fuel f).
Definition newton (fuel : nat) (f g : R -> R) := solve fuel f (newton_impl fuel f g).
Definition brent (fuel : nat) (f : R -> R) := solve fuel f (brent_impl fuel f).
