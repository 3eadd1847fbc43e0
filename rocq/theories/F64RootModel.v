(** The root finders (RustQuant_math/src/rootfinding) on binary64 numbers, rounding to nearest even,
    with infinities and a NaN; [RootModel] has the same functions on exact real numbers.

    The objective and its derivative are any total functions on binary64 numbers, so they may return
    NaN or an infinity anywhere.  The loops are bounded by [MAX_ITERATIONS] in the code itself; [fuel]
    only makes the recursion structural, and it never runs out when [fuel >= 1000]. *)
From Coq Require Import ZArith List Bool.
From Flocq Require Import IEEE754.BinarySingleNaN.
From Verif Require Import Res F64Model.

Definition fabs (x : f64) : f64 := Babs x.
Definition fneg (x : f64) : f64 := Bopp x.
(** [f64::EPSILON] *)
Definition eps64 : f64 := lit 1 (-52).
Definition half64 : f64 := lit 1 (-1).

(** rootfinder.rs 19 [MAX_ITERATIONS] *)
Definition max_iter64 : Z := 1000.

(** rootfinder.rs 36-57 [RootfinderData] as given by the caller *)
Record rdata64 := RData64 { stepsize64 : f64; accuracy64 : f64; lo64 : f64; hi64 : f64; enforced64 : bool }.

(** rootfinder.rs 100-109 [enforce_bounds] *)
Definition enforce64 (d : rdata64) (x : f64) : f64 :=
  if enforced64 d && flt x (lo64 d) then lo64 d
  else if enforced64 d && flt (hi64 d) x then hi64 d
  else x.

(** rootfinder.rs 117-126 [nrsign] *)
Definition nrsign64 (a b : f64) : f64 :=
  let t1 := if fle zero a then a else fneg a in
  let t2 := if fle zero a then fneg a else a in
  if fle zero b then t1 else t2.

(** rootfinder.rs 128-143 [close]; [powi(_, 2)] is one multiplication *)
Definition close64 (x y : f64) : bool :=
  if feq x y then true else
  let diff := fabs (fsub x y) in
  let tolerance := fmul (lit 42 0) eps64 in
  if feq (fmul x y) zero then flt diff (fmul tolerance tolerance)
  else fle diff (fmul tolerance (fabs x)) && fle diff (fmul tolerance (fabs y)).

(** the private bracket fields of [RootfinderData] *)
Record bracket64 := Bracket64 { xmin : f64; xmax : f64; ymin : f64; ymax : f64 }.

(** ** bisection.rs 48-77 [solve_impl] *)

(** 62-76: the loop *)
Fixpoint bisect_loop64 (fuel : nat) (f : f64 -> f64) (acc : f64) (count : Z) (root dx : f64) : res f64 :=
  match fuel with
  | O => NoFuel
  | S fuel' =>
      if (count <=? max_iter64)%Z then
        let dx := fdiv dx two in
        let x_mid := fadd root dx in
        let f_mid := f x_mid in
        let root := if fle f_mid zero then x_mid else root in
        if flt (fabs dx) acc || close64 f_mid zero then Ret root
        else bisect_loop64 fuel' f acc (count + 1) root dx
      else Ret zero
  end.
Definition bisection_impl64 (fuel : nat) (f : f64 -> f64) (acc : f64) (b : bracket64) (count : Z) : res f64 :=
  if flt (ymin b) zero
  then bisect_loop64 fuel f acc count (xmin b) (fsub (xmax b) (xmin b))
  else bisect_loop64 fuel f acc count (xmax b) (fsub (xmin b) (xmax b)).

(** ** newton_raphson.rs 53-110 [solve_impl] *)

(** 78-109: the loop; [root], its value and derivative, the oriented bracket, the last two steps *)
Fixpoint newton_loop64 (fuel : nat) (f g : f64 -> f64) (acc : f64) (count : Z)
    (root froot dfroot xl xh dx dxold : f64) : res f64 :=
  match fuel with
  | O => NoFuel
  | S fuel' =>
      if (count <=? max_iter64)%Z then
        let check_1 := fsub (fmul (fsub root xh) dfroot) froot in
        let check_2 := fsub (fmul (fsub root xl) dfroot) froot in
        let check_3 := flt (fabs (fmul dxold dfroot)) (fabs (fmul two froot)) in
        let next (dx dxold root : f64) :=
          if flt (fabs dx) acc then Ret root
          else
            let froot := f root in
            let dfroot := g root in
            if flt froot zero
            then newton_loop64 fuel' f g acc (count + 1) root froot dfroot root xh dx dxold
            else newton_loop64 fuel' f g acc (count + 1) root froot dfroot xl root dx dxold in
        if flt zero (fmul check_1 check_2) || check_3
        then next (fdiv (fsub xh xl) two) dx (fadd xl (fdiv (fsub xh xl) two))
        else next (fdiv froot dfroot) dx (fsub root (fdiv froot dfroot))
      else Ret zero
  end.
(** 53-76; the root is set by the caller, line 147 *)
Definition newton_impl64 (fuel : nat) (f g : f64 -> f64) (acc : f64) (b : bracket64) (count : Z) : res f64 :=
  let root := fmul half64 (fadd (xmax b) (xmin b)) in
  let xl := if flt (ymin b) zero then xmin b else xmax b in
  let xh := if flt (ymin b) zero then xmax b else xmin b in
  newton_loop64 fuel f g acc (count + 1) root (f root) (g root) xl xh (fsub (xmax b) (xmin b)) (fsub (xmax b) (xmin b)).

(** ** brent.rs 48-145 [solve_impl] *)

(** 94-131: the next step [d] and the one before [e] *)
Definition brent_step64 (root froot x_mid x_acc1 d e : f64) (b : bracket64) : f64 * f64 :=
  if fle x_acc1 (fabs e) && flt (fabs froot) (ymin b) then
    let s := fdiv froot (ymin b) in
    let '(p, q) :=
      if close64 (xmin b) (xmax b) then (fmul (fmul two x_mid) s, fsub one s)
      else
        let q := fdiv (ymin b) (ymax b) in
        let r := fdiv froot (ymax b) in
        (fmul s (fsub (fmul (fmul (fmul two x_mid) q) (fsub q r)) (fmul (fsub root (xmin b)) (fsub r one))),
         fmul (fmul (fsub q one) (fsub r one)) (fsub s one)) in
    let q := if flt zero p then fneg q else q in
    let p := fabs p in
    let min1 := fsub (fmul (fmul (lit 3 0) x_mid) q) (fabs (fmul x_acc1 q)) in
    let min2 := fabs (fmul e q) in
    let ternary := if flt min1 min2 then min1 else min2 in
    if flt (fmul two p) ternary then (fdiv p q, d) else (x_mid, x_mid)
  else (x_mid, x_mid).

(** 66-144: the loop *)
Fixpoint brent_loop64 (fuel : nat) (f : f64 -> f64) (acc : f64) (count : Z)
    (root froot d e : f64) (b : bracket64) : res f64 :=
  match fuel with
  | O => NoFuel
  | S fuel' =>
      if (count <=? max_iter64)%Z then
        (* 67-72 *)
        let same := (flt zero froot && flt zero (ymax b)) || (flt froot zero && flt (ymax b) zero) in
        let e := if same then fsub root (xmin b) else e in
        let d := if same then e else d in
        let b := if same then Bracket64 (xmin b) (xmin b) (ymin b) (ymin b) else b in
        (* 74-84 *)
        let swap := flt (fabs (ymax b)) (fabs froot) in
        let '(root, froot, b) :=
          if swap then (xmax b, ymax b, Bracket64 root root froot froot) else (root, froot, b) in
        (* 86-92 *)
        let x_acc1 := fadd (fmul (fmul two eps64) (fabs root)) (fmul half64 acc) in
        let x_mid := fmul half64 (fsub (xmax b) root) in
        if fle (fabs x_mid) x_acc1 || close64 froot zero then Ret root
        else
          let '(d, e) := brent_step64 root froot x_mid x_acc1 d e b in
          (* 133-142 *)
          let root' := if flt x_acc1 (fabs d) then fadd root d else fadd root (nrsign64 x_acc1 x_mid) in
          brent_loop64 fuel' f acc (count + 1) root' (f root') d e (Bracket64 root (xmax b) froot (ymax b))
      else Ret zero
  end.
Definition brent_impl64 (fuel : nat) (f : f64 -> f64) (acc : f64) (b : bracket64) (count : Z) : res f64 :=
  brent_loop64 fuel f acc count (xmax b) (ymax b) zero zero b.

(** ** [solve]: bisection.rs 79-153, brent.rs 147-221, newton_raphson.rs 112-186
    (the same text); the flag is [flipflop == -1] *)

(** bisection.rs 84: the literal 1.6 *)
Definition growth64 : f64 := lit 7205759403792794 (-52).
Fixpoint solve_loop64 (fuel : nat) (f : f64 -> f64) (impl : f64 -> bracket64 -> Z -> res f64) (dt : rdata64) (acc : f64)
    (count : Z) (flip : bool) (b : bracket64) : res f64 :=
  match fuel with
  | O => NoFuel
  | S fuel' =>
      if (count <=? max_iter64)%Z then
        if fle (fmul (ymin b) (ymax b)) zero then
          if close64 (ymin b) zero then Ret (xmin b)
          else if close64 (ymax b) zero then Ret (xmax b)
          else impl acc b count
        else
          let lower := enforce64 dt (fadd (xmin b) (fmul growth64 (fsub (xmin b) (xmax b)))) in
          let upper := enforce64 dt (fadd (xmax b) (fmul growth64 (fsub (xmax b) (xmin b)))) in
          let b_lower := Bracket64 lower (xmax b) (f lower) (ymax b) in
          let b_upper := Bracket64 (xmin b) upper (ymin b) (f upper) in
          if flt (fabs (ymin b)) (fabs (ymax b))
          then solve_loop64 fuel' f impl dt acc (count + 1) flip b_lower
          else if flt (fabs (ymax b)) (fabs (ymin b))
          then solve_loop64 fuel' f impl dt acc (count + 1) flip b_upper
          else if flip
          then solve_loop64 fuel' f impl dt acc (count + 2) false b_lower
          else solve_loop64 fuel' f impl dt acc (count + 1) true b_upper
      else Ret zero
  end.

(** 80-108; the accuracy is positive after the assertion, so [f64::max] is that of two numbers *)
Definition solve64 (fuel : nat) (f : f64 -> f64) (impl : f64 -> bracket64 -> Z -> res f64) (guess : f64) (dt : rdata64) : res f64 :=
  assertb (flt zero (accuracy64 dt)) (
  let acc := fmax (accuracy64 dt) eps64 in
  let y := f guess in
  if close64 y zero then Ret guess
  else
    let b := if flt zero y
      then let x := enforce64 dt (fsub guess (stepsize64 dt)) in Bracket64 x guess (f x) y
      else let x := enforce64 dt (fadd guess (stepsize64 dt)) in Bracket64 guess x y (f x) in
    solve_loop64 fuel f impl dt acc 2 true b).

Definition bisection64 (fuel : nat) (f : f64 -> f64) := solve64 fuel f (bisection_impl64 fuel f).
Definition newton64 (fuel : nat) (f g : f64 -> f64) := solve64 fuel f (newton_impl64 fuel f g).
Definition brent64 (fuel : nat) (f : f64 -> f64) := solve64 fuel f (brent_impl64 fuel f).
