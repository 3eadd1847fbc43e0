(** Model of the fractional processes: fractional_brownian_motion.rs,
    fractional_ornstein_uhlenbeck.rs, fractional_cox_ingersoll_ross.rs and the
    driver in fractional_process.rs (crates/RustQuant_stochastics/src).

    Simplifications: those of SimModel.v and FgnModel.v; in particular the horizon
    [t_n] is positive (for a negative one [powf] gives NaN noise). *)
From Coq Require Import Reals List Arith Bool ZArith.
From Verif Require Import Res InterpModel StatModel MatLib SimModel FgnModel.
Import ListNotations.
Open Scope R_scope.

(** fractional_process.rs 22-29 [FractionalProcessGeneratorMethod] *)
Inductive fgn_method := CHOLESKY | FFT.

(** The random sources: those of the driver, the draws of [StdRng::from_entropy] for
    path i (Cholesky without a seed), and the draws of the thread generator for path
    i (Fourier; the even entries are real parts, the odd ones imaginary parts). *)
Record fenv := Fenv {
  base_env : env;
  cholesky_fresh : nat -> nat -> R;
  fourier_draw : nat -> nat -> R
}.

(** A noise vector with a NaN in it would need NaN noise in the driver; [NoFuel]
    marks that case as outside the model, and FracProps.v shows that it never occurs. *)
Fixpoint finite_noise (l : list fl) : res (list R) :=
  match l with
  | [] => Ret []
  | Some x :: l' => let! r := finite_noise l' in Ret (x :: r)
  | None :: _ => NoFuel
  end.

(** fractional_process.rs 97-155 as the driver calls it for path i: the seed is not used *)
Definition fgn_fourier (fe : fenv) (h : R) (n : nat) (t_n : R) (seed : option Z) (i : nat) : res (list R) :=
  let! v := fgn_fft h n t_n (fun k => fourier_draw fe i (2 * k)%nat) (fun k => fourier_draw fe i (2 * k + 1)%nat) in
  finite_noise v.

(** fractional_process.rs 31-42 [simulate_fractional_stochastic_process]; simulation.rs
    51-53, 78-80, 113-115 hand every path the same configured seed, and [t_n] (not
    [t_n - t_0]) as the length of the noise *)
Definition simulate_fractional (fe : fenv) (p : process) (h : R) (m : fgn_method) (cfg : config) (schedule : list nat) :=
  let fgn := match m with
             | CHOLESKY => fgn_cholesky acf_matrix_sqrt (rng (base_env fe)) (cholesky_fresh fe)
             | FFT => fgn_fourier fe
             end in
  simulate (base_env fe) p cfg None (Some (fgn h (n_steps cfg) (t_n cfg) (seed cfg))) schedule.

(** [assert!((0.0..=1.0).contains(&hurst))], the check of all three constructors *)
Definition hurst_checked {A} (h : R) (v : A) : res A := assertb (Rleb 0 h && Rleb h 1) (Ret v).

(** fractional_brownian_motion.rs 16-41; [Default] (23-27) is [fbm_new (1/2) FFT] *)
Record fbm := Fbm { fbm_hurst : R; fbm_method : fgn_method }.
Definition fbm_new (h : R) (m : fgn_method) : res fbm := hurst_checked h (Fbm h m).
Definition fbm_default : res fbm := fbm_new (1 / 2) FFT.
(** 43-54 *)
Definition fbm_process : process := Process (fun _ _ => Ret (Some 0)) (fun _ _ => Ret (Some 1)) no_jump.
(** 60-62 *)
Definition fbm_generate (fe : fenv) (b : fbm) (cfg : config) (schedule : list nat) :=
  simulate_fractional fe fbm_process (fbm_hurst b) (fbm_method b) cfg schedule.

(** fractional_ornstein_uhlenbeck.rs 15-52 and fractional_cox_ingersoll_ross.rs 15-52:
    the two have the same fields and constructor *)
Record frac := Frac { fr_mu : R -> R; fr_sigma : R -> R; fr_theta : R -> R; fr_hurst : R; fr_method : fgn_method }.
Definition frac_new (mu sigma theta : R -> R) (h : R) (m : fgn_method) : res frac :=
  hurst_checked h (Frac mu sigma theta h m).

(** fractional_ornstein_uhlenbeck.rs 54-66 *)
Definition fou_process (f : frac) : process :=
  Process (fun x t => Ret (fmul (Some (fr_theta f t)) (fsub (Some (fr_mu f t)) x)))
    (fun _ t => checked (fr_sigma f t) (Some (fr_sigma f t))) no_jump.
(** 77-79 *)
Definition fou_generate (fe : fenv) (f : frac) (cfg : config) (schedule : list nat) :=
  simulate_fractional fe (fou_process f) (fr_hurst f) (fr_method f) cfg schedule.

(** fractional_cox_ingersoll_ross.rs 54-65: no check of the volatility, and a jump of
    size zero *)
Definition fcir_process (f : frac) : process :=
  Process (fun x t => Ret (fmul (Some (fr_theta f t)) (fsub (Some (fr_mu f t)) x)))
    (fun x t => Ret (fmul (Some (fr_sigma f t)) (fsqrt x))) (fun _ _ _ => Some (Some 0)).
(** 76-78 *)
Definition fcir_generate (fe : fenv) (f : frac) (cfg : config) (schedule : list nat) :=
  simulate_fractional fe (fcir_process f) (fr_hurst f) (fr_method f) cfg schedule.

(** [parameters]: fractional_brownian_motion.rs 56-58 and 68-75, 67-74 of the other two *)
Definition fbm_parameters (b : fbm) : list R := [fbm_hurst b].
Definition frac_parameters (f : frac) : list R := [fr_mu f 0; fr_sigma f 0; fr_theta f 0; fr_hurst f].
