(** Model of stochastic-process simulation.

    Sources (all under crates/RustQuant_stochastics/src): simulation.rs,
    process.rs, model_parameter.rs, the process files, fractional_process.rs.

    Simplifications, for the whole file:
    - a finite f64 is [Some r] of type [fl]; [None] is NaN or an infinity, and any
      arithmetic on it gives [None] again;
    - random sources are parameters: [rng seed k] is the k-th standard normal drawn
      from [StdRng::seed_from_u64(seed)], [entropy] is the value of [rand::random]
      used when no seed is given, [jump_draw i t] is the normal that [jump]
      draws from the thread generator on path i at step t, [poisson_draw] the
      vector sampled for the jump counts, [fgn i] the fractional noise produced
      for path i;
    - [ModelParameter] (model_parameter.rs 18-43) is a function [R -> R];
    - u64 seeds are [Z] modulo 2^64. *)
From Coq Require Import Reals List Bool ZArith.
From Verif Require Import Res InterpModel RList StatModel.
Import ListNotations.
Open Scope R_scope.

Definition fl := option R.
Definition fadd (a b : fl) : fl := match a, b with Some x, Some y => Some (x + y) | _, _ => None end.
Definition fsub (a b : fl) : fl := match a, b with Some x, Some y => Some (x - y) | _, _ => None end.
Definition fmul (a b : fl) : fl := match a, b with Some x, Some y => Some (x * y) | _, _ => None end.
Definition ffdiv (a b : fl) : fl := match a, b with Some x, Some y => fdiv x y | _, _ => None end.
(** [f64::sqrt], [f64::ln] *)
Definition fsqrt (a : fl) : fl := match a with Some x => if Rltb x 0 then None else Some (sqrt x) | None => None end.
Definition fln (a : fl) : fl := match a with Some x => if Rltb 0 x then Some (ln x) else None | None => None end.
(** [f64::powf] for exponents in [0,1], the only ones that reach it here *)
Definition fpowf (a : fl) (e : R) : fl :=
  if Reqb e 0 then Some 1 else
  match a with
  | None => None
  | Some x => if Rltb 0 x then Some (Rpower x e) else if Reqb x 0 then Some 0
              else if Reqb e 1 then Some x else None
  end.

(** process.rs 208-238 [trait StochasticProcess]; [jump] takes the random draw as
    an extra argument *)
Record process := Process {
  drift : fl -> R -> res fl;
  diffusion : fl -> R -> res fl;
  jump : R -> fl -> R -> option fl
}.
Definition no_jump : R -> fl -> R -> option fl := fun _ _ _ => None.

(** ** The processes *)

(** brownian_motion.rs 30-42 *)
Definition brownian_motion : process :=
  Process (fun _ _ => Ret (Some 0)) (fun _ _ => Ret (Some 1)) no_jump.

(** [assert!(self.sigma.0(t) >= 0.0)], then the value *)
Definition checked (s : R) (v : fl) : res fl := assertb (negb (Rltb s 0)) (Ret v).

(** arithmetic_brownian_motion.rs 32-47 *)
Definition abm (mu sigma : R -> R) : process :=
  Process (fun _ t => Ret (Some (mu t))) (fun _ t => checked (sigma t) (Some (sigma t))) no_jump.

(** geometric_brownian_motion.rs 44-59 *)
Definition gbm (mu sigma : R -> R) : process :=
  Process (fun x t => Ret (fmul (Some (mu t)) x)) (fun x t => checked (sigma t) (fmul (Some (sigma t)) x)) no_jump.

(** constant_elasticity_of_variance.rs 42-57 *)
Definition cev (mu sigma elasticity : R -> R) : process :=
  Process (fun x t => Ret (fmul (Some (mu t)) x))
    (fun x t => assertb (negb (Rltb (sigma t) 0))
       (assertb (negb (Rltb (elasticity t) 0) && negb (Rltb 1 (elasticity t)))
          (Ret (fmul (Some (sigma t)) (fpowf x (elasticity t)))))) no_jump.

(** cox_ingersoll_ross.rs 42-55 *)
Definition cir (mu sigma theta : R -> R) : process :=
  Process (fun x t => Ret (fmul (Some (theta t)) (fsub (Some (mu t)) x)))
    (fun x t => checked (sigma t) (fmul (Some (sigma t)) (fsqrt x))) no_jump.

(** ornstein_uhlenbeck.rs 41-54 *)
Definition ou (mu sigma theta : R -> R) : process :=
  Process (fun x t => Ret (fmul (Some (theta t)) (fsub (Some (mu t)) x)))
    (fun _ t => checked (sigma t) (Some (sigma t))) no_jump.

(** extended_vasicek.rs 40-52, hull_white.rs 40-52 *)
Definition hull_white (alpha sigma theta : R -> R) : process :=
  Process (fun x t => Ret (fsub (Some (theta t)) (fmul (Some (alpha t)) x))) (fun _ t => Ret (Some (sigma t))) no_jump.

(** ho_lee.rs 32-46 *)
Definition ho_lee (sigma theta : R -> R) : process :=
  Process (fun _ t => checked (theta t) (Some (theta t))) (fun _ t => checked (sigma t) (Some (sigma t))) no_jump.

(** black_derman_toy.rs 51-57 [diff]: central difference, step [EPSILON^(1/3)]
    (times t unless t = 0) *)
Definition diff_eps (t : R) : R :=
  if Reqb t 0 then Rpower (/ 2 ^ 52) (1 / 3) else Rpower (/ 2 ^ 52) (1 / 3) * t.
Definition diff (f : R -> R) (t : R) : R := (f (t + diff_eps t) - f (t - diff_eps t)) / (2 * diff_eps t).

(** black_derman_toy.rs 32-44 *)
Definition black_derman_toy (sigma theta : R -> R) : process :=
  Process (fun x t => Ret (fadd (Some (theta t)) (fmul (fdiv (diff sigma t) (sigma t)) x)))
    (fun _ t => Ret (Some (sigma t))) no_jump.

(** geometric_brownian_bridge.rs 50-66 *)
Definition gbb (mu sigma : R -> R) (end_value end_time : R) : process :=
  Process (fun x t => Ret (fadd (fmul (Some (mu t)) x)
                (fmul (ffdiv (fsub (fln (Some end_value)) (fln x)) (Some (end_time - t))) x)))
    (fun x t => checked (sigma t) (fmul (Some (sigma t)) x)) no_jump.

(** merton_jump_diffusion.rs 57-70; the jump is one draw of N(m, v) *)
Definition merton (mu sigma : R -> R) (m v : R) : process :=
  Process (fun x t => Ret (fmul (Some (mu t)) x)) (fun x t => checked (sigma t) (fmul (Some (sigma t)) x))
    (fun z _ _ => Some (Some (m + sqrt v * z))).

(** ** simulation.rs *)

(** process.rs 31-40 [enum StochasticScheme] *)
Inductive scheme := EulerMaruyama | Milstein | StrangSplitting.

(** process.rs 124-148 [struct StochasticProcessConfig] *)
Record config := Config {
  x_0 : R; t_0 : R; t_n : R; n_steps : nat; cfg_scheme : scheme; m_paths : nat; parallel : bool; seed : option Z }.

(** The random sources (see the head of the file). *)
Record env := Env {
  rng : Z -> nat -> R;
  entropy : Z;
  jump_draw : nat -> nat -> R;
  poisson_draw : R -> nat -> nat -> R
}.

(** simulation.rs 167-183 [calculate_jump] *)
Definition calculate_jump (p : process) (draw : R) (x : fl) (t : R) (count : R) : fl :=
  match jump p draw x t with
  | Some jump_size => if Rltb 0 count then jump_size else Some 0
  | None => Some 0
  end.

(** simulation.rs 60-70: the jump summand of a step; [None] stands for an empty
    [jumps] vector *)
Definition jump_term (p : process) (draw : R) (x : fl) (t : R) (count : option R) : fl :=
  match count with Some c => calculate_jump p draw x t c | None => Some 0 end.

(** simulation.rs 58-72, one step of Euler-Maruyama; [z] is the noise *)
Definition euler_step (p : process) (dt : R) (x : fl) (t : R) (z : R) (j : fl) : res fl :=
  let! mu := drift p x t in
  let! sg := diffusion p x t in
  Ret (fadd (fadd (fadd x (fmul mu (Some dt))) (fmul (fmul sg (Some (sqrt dt))) (Some z))) j).

(** simulation.rs 84-106, one step of Milstein *)
Definition milstein_step (p : process) (dt : R) (x : fl) (t : R) (dw : R) (j : fl) : res fl :=
  let! mu := drift p x t in
  let! sg := diffusion p x t in
  let! up := diffusion p (fadd x (Some (1 / 100000))) t in
  let! dn := diffusion p (fsub x (Some (1 / 100000))) t in
  Ret (fadd (fadd (fadd (fadd x (fmul mu (Some dt))) (fmul sg (Some dw)))
              (fmul (Some (1 / 2)) (fmul (fmul sg (fmul (fmul (fsub up dn) (Some (/ 2))) (Some (1 / 100000)))) (Some (dw * dw - dt))))) j).

(** simulation.rs 119-136, one step of "Strang splitting" *)
Definition strang_step (p : process) (dt : R) (x : fl) (t : R) (z : R) (j : fl) : res fl :=
  let! mu := drift p x t in
  let! sg := diffusion p (fadd x (fmul (fmul (Some (1 / 2)) mu) (Some dt))) (t + 1 / 2 * dt) in
  Ret (fadd (fadd (fadd (fadd x (fmul (fmul (Some (1 / 2)) mu) (Some dt))) (fmul sg (Some z)))
              (fmul (fmul (Some (1 / 2)) mu) (Some dt))) j).

Definition step_of (s : scheme) := match s with EulerMaruyama => euler_step | Milstein => milstein_step | StrangSplitting => strang_step end.

(** simulation.rs 16-19, 143-162: where path i takes its noise from: a generator
    seeded with [base_seed.wrapping_add(i)], or a fractional noise vector *)
Inductive noise_source := Dynamic (base_seed : Z) | Fractional (fgn : nat -> res (list R)).
Definition u64_wrapping_add (a b : Z) : Z := ((a + b) mod 2 ^ 64)%Z.

Section simulate.
  Context (e : env) (p : process) (cfg : config).

  (** simulation.rs 29 *)
  Definition dt : R := (t_n cfg - t_0 cfg) / INR (n_steps cfg).
  Definition time_at (t : nat) : R := t_0 cfg + dt * INR t.

  (** simulation.rs 31-33; with no steps [dt] is infinite and the only time is NaN *)
  Definition times : list fl :=
    match n_steps cfg with
    | O => [None]
    | Datatypes.S _ => map (fun t => Some (time_at t)) (seq 0 (Datatypes.S (n_steps cfg)))
    end.

  Section paths.
    Context (src : noise_source) (jumps : option (nat -> R)).

    (** the noise vector of path i, computed before its loop *)
    Definition path_noise (i : nat) : res (nat -> res R) :=
      match src with
      | Dynamic base => Ret (fun t => Ret (rng e (u64_wrapping_add base (Z.of_nat i)) t))
      | Fractional fgn => let! v := fgn i in Ret (fun t => unwrap (nth_error v t))
      end.

    (** one iteration of the loop of path i *)
    Definition path_step (i : nat) (noise : nat -> res R) (t : nat) (x : fl) : res fl :=
      let! z := noise t in
      step_of (cfg_scheme cfg) p dt x (time_at t) z
        (jump_term p (jump_draw e i t) x (time_at t) (match jumps with Some f => Some (f t) | None => None end)).

    (** the loop from step t with k steps left *)
    Fixpoint path_loop (i : nat) (noise : nat -> res R) (t k : nat) (x : fl) : res (list fl) :=
      match k with
      | O => Ret [x]
      | Datatypes.S k' =>
          let! x' := path_step i noise t x in
          let! r := path_loop i noise (Datatypes.S t) k' x' in
          Ret (x :: r)
      end.

    Definition path (i : nat) : res (list fl) :=
      let! noise := path_noise i in path_loop i noise 0 (n_steps cfg) (Some (x_0 cfg)).

    (** simulation.rs 153-161: serial *)
    Fixpoint collect {A} (l : list (res A)) : res (list A) :=
      match l with [] => Ret [] | a :: l' => let! x := a in let! r := collect l' in Ret (x :: r) end.
    Definition serial_paths : res (list (list fl)) := collect (map path (seq 0 (m_paths cfg))).

    (** simulation.rs 143-152: rayon.  Each task owns its path ([&mut]) and its
        generator; a schedule is an arbitrary interleaving of loop iterations,
        given as the list of the path indices that advance.  A slot is the path
        built so far. *)
    Definition advance1 (i : nat) (noise : nat -> res R) (pth : res (list fl)) : res (list fl) :=
      let! l := pth in
      if Nat.leb (length l) (n_steps cfg) then
        let! x' := path_step i noise (length l - 1) (last l None) in Ret (l ++ [x'])
      else Ret l.
    Definition parallel_paths (schedule : list nat) : res (list (list fl)) :=
      let init := map (fun i => (i, path_noise i, Ret [Some (x_0 cfg)])) (seq 0 (m_paths cfg)) in
      let final := fold_left (fun st j =>
          map (fun '(i, nz, pth) => (i, nz, if Nat.eqb i j then (let! f := nz in advance1 i f pth) else pth)) st) schedule init in
      collect (map (fun '(i, nz, pth) => let! _ := nz in pth) final).
  End paths.

  (** simulation.rs 22-165 [simulate_stochatic_process].  [schedule] is only used
      in parallel mode. *)
  Definition simulate (jump_config : option R) (fractional : option (nat -> res (list R))) (schedule : list nat)
    : res (list fl * list (list fl)) :=
    assertb (Rltb (t_0 cfg) (t_n cfg))
    (let! jumps := match jump_config with
                   | None => Ret None
                   | Some lambda =>
                       (* [Poisson::new] asserts a positive rate, [sample] a positive count *)
                       assertb (negb (Nat.eqb (n_steps cfg) 0))
                         (assertb (Rltb 0 (lambda * dt)) (Ret (Some (poisson_draw e (lambda * dt) (n_steps cfg)))))
                   end in
     let base := match seed cfg with Some s => s | None => entropy e end in
     let src := match fractional with Some f => Fractional f | None => Dynamic base end in
     let! ps := if parallel cfg then parallel_paths src jumps schedule else serial_paths src jumps in
     Ret (times, ps)).

  (** process.rs 226-236 [generate] (the default method) *)
  Definition generate (schedule : list nat) := simulate None None schedule.

End simulate.

(** merton_jump_diffusion.rs 75-77 [generate]: the rate is [lambda(0)] *)
Definition merton_generate (e : env) (mu sigma lambda : R -> R) (m v : R) (cfg : config) (schedule : list nat) :=
  simulate e (merton mu sigma m v) cfg (Some (lambda 0)) None schedule.

(** ** Fractional noise *)

(** fractional_process.rs 45-59 [acf_vector]; [0.powf(2h)] is 0, or 1 for h = 0 *)
Definition pow2h (h x : R) : R := if Reqb h 0 then 1 else if Reqb x 0 then 0 else Rpower x (2 * h).
Definition acf (h : R) (i : nat) : R :=
  match i with
  | O => 1
  | _ => 1 / 2 * (pow2h h (INR i + 1) - 2 * pow2h h (INR i) + pow2h h (INR i - 1))
  end.
Definition acf_vector (h : R) (n : nat) : list R := map (acf h) (seq 0 n).

(** fractional_process.rs 62-78: the (symmetric) matrix whose Cholesky factor is
    taken: entry (i, j) is [acf |i - j|] *)
Definition acf_entry (h : R) (i j : nat) : R := acf h (if Nat.leb j i then i - j else j - i).

(** fractional_process.rs 81-95 [fgn_cholesky]: [chol] is the lower factor returned
    by nalgebra (a panic if the matrix is not positive definite); [eps] the
    draws of the generator, which depend on nothing but the seed when there is
    one *)
Definition fgn_cholesky (chol : R -> nat -> res (nat -> nat -> R)) (rng : Z -> nat -> R) (fresh : nat -> nat -> R)
    (h : R) (n : nat) (t_n : R) (seed : option Z) (i : nat) : res (list R) :=
  let! l := chol h n in
  let z := match seed with Some s => rng s | None => fresh i end in
  Ret (map (fun a => rsum (map (fun b => l a b * z b) (seq 0 n)) * Rpower (t_n / INR n) h) (seq 0 n)).

(** fractional_process.rs 31-42 with the CHOLESKY method *)
Definition fractional_cholesky (e : env) chol fresh (p : process) (h : R) (cfg : config) (schedule : list nat) :=
  simulate e p cfg None (Some (fgn_cholesky chol (rng e) fresh h (n_steps cfg) (t_n cfg) (seed cfg))) schedule.

(** ** process.rs 43-113 [StochasticVolatilityProcess::euler_maruyama], one path
    pair; [dw] are the normals before scaling.  Only the x-paths are returned. *)
Section stochvol.
  Context (drift_1 diffusion_1 drift_2 diffusion_2 : R -> R -> R) (t0 h : R) (z : nat -> R).
  Fixpoint sv_loop (t k : nat) (x y : R) : list (R * R) :=
    match k with
    | O => [(x, y)]
    | Datatypes.S k' =>
        let s := t0 + h * INR t in
        let dw := z t * sqrt h in
        (x, y) :: sv_loop (Datatypes.S t) k' (x + drift_1 x s * h + diffusion_1 x s * dw)
                                              (y + drift_2 y s * h + diffusion_2 y s * dw)
    end.
End stochvol.
Definition sv_euler_maruyama (drift_1 diffusion_1 drift_2 diffusion_2 : R -> R -> R) (z : nat -> nat -> R)
    (x0 y0 t0 tn : R) (n m : nat) : res (list R * list (list R)) :=
  assertb (Rltb t0 tn)
    (let h := (tn - t0) / INR n in
     Ret (map (fun t => t0 + h * INR t) (seq 0 (Datatypes.S n)),
          map (fun i => map fst (sv_loop drift_1 diffusion_1 drift_2 diffusion_2 t0 h (z i) 0 n x0 y0)) (seq 0 m))).
