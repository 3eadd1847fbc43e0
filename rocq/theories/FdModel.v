(** Model of the finite-difference option pricer:
    crates/RustQuant_instruments/src/options/finite_difference_pricer.rs
    and of the exercise flag, options/option_flags.rs 24-49.

    f64 is R. The year fraction (216-221: Actual/365.25 between the evaluation
    and expiration dates, DayCountModel.v) is the field [f_T]; the code computes
    NaN when it is not positive, so the theorems assume it positive. Step counts
    (u32) are [nat]; the u32 subtractions that would wrap are panics (debug
    arithmetic; with wrapping arithmetic the index that follows is out of bounds
    and panics as well). *)
From Coq Require Import ZArith Reals List Bool Lra Lia.
From Verif Require Import Res DateModel InterpModel PayoffModel.
Import ListNotations.
Open Scope R_scope.

(** option_flags.rs 24-49 *)
Inductive exercise_flag :=
| European (expiry : date)
| American (start end_ : date)
| Bermudan (dates : list date).
(** [Date::MIN], [Date::MAX] of the time crate: [date_min], [date_max] of DateModel.v *)

(** 20-45 *)
Record fd := Fd { f_s : R; f_k : R; f_r : R; f_v : R; f_T : R; f_nt : nat; f_np : nat; f_tf : type_flag; f_ex : exercise_flag }.

(** 67-72 the assertions of [new] *)
Definition fd_ok (m : fd) : bool :=
  Rltb 0 (f_s m) && Rltb 0 (f_k m) && Rltb 0 (f_r m) && Rltb 0 (f_v m) && (0 <? f_nt m)%nat && (0 <? f_np m)%nat.

(** 86-104: [v[0]], [v[1]], [v.len() - 2] panic on vectors shorter than two *)
Fixpoint tri_inner (sub diag super prev : R) (v : list R) : list R :=
  match v with
  | [] => []
  | [x] => [sub * prev + diag * x]
  | x :: ((y :: _) as v') => (sub * prev + diag * x + super * y) :: tri_inner sub diag super x v'
  end.
Definition tri_mul (sub diag super : R) (v : list R) : res (list R) :=
  match v with
  | x :: ((y :: _) as v') => Ret ((diag * x + super * y) :: tri_inner sub diag super x v')
  | _ => Panic
  end.

(** 106-119; [zip] stops at the shorter list *)
Definition dot (row v : list R) : R := fold_left (fun acc p => acc + fst p * snd p) (combine row v) 0.
Definition gen_mul (A : list (list R)) (v : list R) : list R := map (fun row => dot row v) A.

(** 130-138: three entries are pushed whatever the size *)
Definition theta_list (sub diag super : R) (n : nat) : list R :=
  fold_left (fun th i => th ++ [diag * nth i th 0 - super * sub * nth (i - 1) th 0]) (seq 2 (n - 2)) [1; diag; diag * diag - super * sub].
(** 140-146 *)
Definition phi_list (sub diag super : R) (n : nat) : list R :=
  fold_left (fun th i => th ++ [diag * nth i th 0 - super * sub * nth (i - 1) th 0]) (seq 1 (n - 1)) [1; diag].
(** the sign and the off-diagonal product: 158-172 *)
Definition repeat_mul (x : R) (n : nat) (a : R) : R := Nat.iter n (fun y => y * x) a.
(** 121-183 *)
Definition invert_tri (sub diag super : R) (n : nat) : list (list R) :=
  let th := theta_list sub diag super n in
  let theta_n := last th 0 in
  let theta := removelast th in
  let phi := rev (removelast (phi_list sub diag super n)) in
  map (fun i => map (fun j =>
    let sign := (-1) ^ (i + j) in
    match (i ?= j)%nat with
    | Lt => fold_left (fun value k => value * (if (k =? n - 1)%nat then diag else super)) (seq i (j - i)) sign * (nth i theta 0 * nth j phi 0 / theta_n)
    | Eq => sign * (nth i theta 0 * nth i phi 0 / theta_n)
    | Gt => repeat_mul sub (i - j) sign * (nth j theta 0 * nth i phi 0 / theta_n)
    end) (seq 0 n)) (seq 0 n).

(** [v[i] += x] *)
Definition add_at (i : nat) (x : R) (v : list R) : res (list R) :=
  match nth_error v i with
  | Some y => Ret (firstn i v ++ (y + x) :: skipn (S i) v)
  | None => Panic
  end.

Section Fd.
  Variable m : fd.

  (** 185-190 *)
  Definition payoff (s : R) : R := match f_tf m with Call => Rmax (s - f_k m) 0 | Put => Rmax (f_k m - s) 0 end.

  (** 235-243 *)
  Definition dt : R := f_T m / INR (f_nt m).
  Definition x_min : R := ln (f_s m) - 5 * f_v m * sqrt (f_T m).
  Definition x_max : R := ln (f_s m) + 5 * f_v m * sqrt (f_T m).
  Definition dx : R := (x_max - x_min) / INR (f_np m).
  (** 245-250 *)
  Definition cx : R := / 2 * dt * f_v m ^ 2 / dx ^ 2.
  Definition cy : R := dt * (f_r m - / 2 * f_v m ^ 2) / (2 * dx).

  Definition node (i : nat) : R := x_min + INR i * dx.

  (** 192-201 *)
  Definition american_step (v : list R) (tau : R) : list R :=
    map (fun i => Rmax (nth (i - 1) v 0) (exp (f_r m * tau) * payoff (exp (node i)))) (seq 1 (f_np m - 1)).
  (** 203-207 *)
  Definition initial_condition : list R := map (fun i => payoff (exp (node i))) (seq 1 (f_np m - 1)).
  (** 209-211, 213-215 *)
  Definition call_boundary (tau x : R) : R := exp x - f_k m * exp (- f_r m * tau).
  Definition put_boundary (tau x : R) : R := f_k m * exp (- f_r m * tau) - exp x.

  (** 224-233 *)
  Definition return_price (u : list R) : res R :=
    let p := f_np m in
    if (p mod 2 =? 0)%nat then unwrap (nth_error u ((p - 1) / 2))
    else if (p <? 3)%nat then Panic
    else let! a := unwrap (nth_error u ((p - 1) / 2)) in let! b := unwrap (nth_error u ((p - 3) / 2)) in Ret ((a + b) / 2).

  (** the pattern of 276-280: an American flag whose dates are exactly
      [Date::MIN] and [Date::MAX] *)
  Definition early_exercise : bool :=
    match f_ex m with American a b => date_eqb a date_min && date_eqb b date_max | _ => false end.
  Definition maybe_exercise (v : list R) (tau : R) : list R := if early_exercise then american_step v tau else v.

  (** the boundary term at time step [t]: [wc] weights the call boundary in
      the last entry, [wp] the put boundary in the first *)
  Definition add_boundary (wc wp : R) (t : nat) (v : list R) : res (list R) :=
    match f_tf m with
    | Call => if (f_np m <? 2)%nat then Panic else add_at (f_np m - 2) (wc * call_boundary (INR t * dt) x_max) v
    | Put => add_at 0 (wp * put_boundary (INR t * dt) x_min) v
    end.

  (** the loops over the time steps *)
  Definition time_loop (step : nat -> list R -> res (list R)) : res (list R) :=
    fold_left (fun acc t => let! v := acc in step t v) (seq 1 (f_nt m)) (Ret initial_condition).
  Definition finish (v : res (list R)) : res R := let! u := v in rmap (fun p => exp (- f_r m * f_T m) * p) (return_price u).

  (** 253-288 *)
  Definition explicit_step (t : nat) (v : list R) : res (list R) :=
    let! v1 := tri_mul (cx - cy) (1 - 2 * cx) (cx + cy) v in
    let! v2 := add_boundary (cx + cy) (cx - cy) t v1 in
    Ret (maybe_exercise v2 (INR t * dt)).
  Definition explicit : res R := finish (time_loop explicit_step).

  (** 291-326; subtracting [(-x - y) * boundary] *)
  Definition implicit_step (t : nat) (v : list R) : res (list R) :=
    let! v1 := add_boundary (- (- cx - cy)) (- (- cx + cy)) t v in
    let v2 := gen_mul (invert_tri (- cx + cy) (1 + 2 * cx) (- cx - cy) (f_np m - 1)) v1 in
    Ret (maybe_exercise v2 (INR t * dt)).
  Definition implicit : res R := finish (time_loop implicit_step).

  (** 329-370 *)
  Definition cn_step (t : nat) (v : list R) : res (list R) :=
    let sub := / 2 * (cx - cy) in let super := / 2 * (cx + cy) in
    let! v1 := tri_mul sub (1 - cx) super v in
    let! v2 := add_boundary (2 * super) (2 * sub) t v1 in
    let v3 := gen_mul (invert_tri (- sub) (1 + cx) (- super) (f_np m - 1)) v2 in
    Ret (maybe_exercise v3 (INR t * dt)).
  Definition crank_nicolson : res R := finish (time_loop cn_step).
End Fd.
