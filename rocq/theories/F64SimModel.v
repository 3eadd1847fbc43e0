(** Euler-Maruyama paths in binary64 (crates/RustQuant_stochastics/src/simulation.rs and the
    processes whose drift and diffusion use no transcendental function).  The normal draws are a
    parameter.  Jumps, fractional noise and the other schemes are left out (see [SimModel]). *)
From Coq Require Import ZArith List Bool.
From Flocq Require Import Core.Zaux IEEE754.BinarySingleNaN.
From Verif Require Import Res F64Model.
Import ListNotations.

(** process.rs 208-238 [trait StochasticProcess], without [jump] *)
Record process64 := Process64 { drift64 : f64 -> f64 -> res f64; diffusion64 : f64 -> f64 -> res f64 }.
(** [assert!(self.sigma.0(t) >= 0.0)], then the value *)
Definition checked64 (s v : f64) : res f64 := assertb (fle zero s) (Ret v).
(** brownian_motion.rs 30-37 *)
Definition bm64 : process64 := Process64 (fun _ _ => Ret zero) (fun _ _ => Ret one).
(** arithmetic_brownian_motion.rs 32-42 *)
Definition abm64 (mu sigma : f64 -> f64) : process64 := Process64 (fun _ t => Ret (mu t)) (fun _ t => checked64 (sigma t) (sigma t)).
(** geometric_brownian_motion.rs 44-54 *)
Definition gbm64 (mu sigma : f64 -> f64) : process64 := Process64 (fun x t => Ret (fmul (mu t) x)) (fun x t => checked64 (sigma t) (fmul (sigma t) x)).
(** ornstein_uhlenbeck.rs 41-49 *)
Definition ou64 (mu sigma theta : f64 -> f64) : process64 := Process64 (fun x t => Ret (fmul (theta t) (fsub (mu t) x))) (fun _ t => checked64 (sigma t) (sigma t)).
(** cox_ingersoll_ross.rs 42-50 *)
Definition cir64 (mu sigma theta : f64 -> f64) : process64 := Process64 (fun x t => Ret (fmul (theta t) (fsub (mu t) x))) (fun x t => checked64 (sigma t) (fmul (sigma t) (fsqrt x))).
(** extended_vasicek.rs 40-47, hull_white.rs 40-47 *)
Definition hull_white64 (alpha sigma theta : f64 -> f64) : process64 := Process64 (fun x t => Ret (fsub (theta t) (fmul (alpha t) x))) (fun _ t => Ret (sigma t)).
(** ho_lee.rs 32-41 *)
Definition ho_lee64 (sigma theta : f64 -> f64) : process64 := Process64 (fun _ t => checked64 (theta t) (theta t)) (fun _ t => checked64 (sigma t) (sigma t)).

(** simulation.rs 60-70: one step; the last summand is the 0.0 that stands for no jump *)
Definition euler_step64 (p : process64) (dt scale x t z : f64) : res f64 :=
  let! mu := drift64 p x t in
  let! sg := diffusion64 p x t in
  Ret (fadd (fadd (fadd x (fmul mu dt)) (fmul (fmul sg scale) z)) zero).
(** 29-33 *)
Definition dt64 (t_0 t_n : f64) (n : nat) : f64 := fdiv (fsub t_n t_0) (of_usize n).
Definition time64 (t_0 dt : f64) (t : nat) : f64 := fadd t_0 (fmul dt (of_usize t)).
(** 31-33 *)
Definition times64 (t_0 t_n : f64) (n : nat) : list f64 := map (time64 t_0 (dt64 t_0 t_n n)) (seq 0 (S n)).
(** 58-73: the loop from step t with k steps left *)
Fixpoint path_loop64 (p : process64) (t_0 dt scale : f64) (z : nat -> f64) (t k : nat) (x : f64) : res (list f64) :=
  match k with
  | O => Ret [x]
  | S k' =>
      let! x' := euler_step64 p dt scale x (time64 t_0 dt t) (z t) in
      let! r := path_loop64 p t_0 dt scale z (S t) k' x' in
      Ret (x :: r)
  end.
(** 22-39, 138: one path; 28 asserts that time runs forward *)
Definition euler64 (p : process64) (x_0 t_0 t_n : f64) (n : nat) (z : nat -> f64) : res (list f64 * list f64) :=
  assertb (flt t_0 t_n)
    (let dt := dt64 t_0 t_n n in
     let! path := path_loop64 p t_0 dt (fsqrt dt) z 0 n x_0 in
     Ret (times64 t_0 t_n n, path)).
