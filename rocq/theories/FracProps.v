(** The fractional processes, from the constructor to the returned paths. *)
From Coq Require Import Reals Lra Lia List Arith Bool ZArith.
From Coquelicot Require Import Coquelicot.
From Verif Require Import Res InterpModel InterpProofs StatModel RList MatLib SimModel SimProps FgnModel FgnMath FgnProps FracModel.
Import ListNotations.
Open Scope R_scope.

Lemma finite_noise_map l : finite_noise (map Some l) = Ret l.
Proof. induction l as [|x l IH]; [reflexivity|]. cbn. rewrite IH. reflexivity. Qed.

(** the normals that path i is made of *)
Definition draws (fe : fenv) (m : fgn_method) (cfg : config) (i k : nat) : R :=
  match m with
  | CHOLESKY => match seed cfg with Some s => rng (base_env fe) s k | None => cholesky_fresh fe i k end
  | FFT => fourier_draw fe i k
  end.
(** how many of them *)
Definition draw_count (m : fgn_method) (n : nat) : nat := match m with CHOLESKY => n | FFT => (2 * (2 * n))%nat end.
(** the Hurst indices the method handles *)
Definition hurst_ok (m : fgn_method) (h : R) : Prop := match m with CHOLESKY => 0 < h < 1 | FFT => 0 < h <= 1 end.
(** the extra factor the driver puts on the noise *)
Definition gain (cfg : config) : R := match cfg_scheme cfg with EulerMaruyama => sqrt (dt cfg) | _ => 1 end.
Definition usable (m : fgn_method) (h : R) (cfg : config) : Prop :=
  hurst_ok m h /\ (0 < n_steps cfg)%nat /\ t_0 cfg < t_n cfg /\ 0 < t_n cfg.
(** the driver's noise for path i *)
Definition frac_noise (fe : fenv) (m : fgn_method) (h : R) (cfg : config) (i : nat) : res (list R) :=
  match m with
  | CHOLESKY => fgn_cholesky acf_matrix_sqrt (rng (base_env fe)) (cholesky_fresh fe) h (n_steps cfg) (t_n cfg) (seed cfg) i
  | FFT => fgn_fourier fe h (n_steps cfg) (t_n cfg) (seed cfg) i
  end.

Lemma noise_answers m h cfg : usable m h cfg -> exists out,
  (forall fe i, frac_noise fe m h cfg i = Ret (out (draws fe m cfg i))) /\
  has_covariance (n_steps cfg) (draw_count m (n_steps cfg)) out
    (fun i j => Rpower (t_n cfg / INR (n_steps cfg)) (2 * h) * acf_entry h i j).
Proof.
  intros (Hh & Hn & Ht & Hp). destruct m; cbn [hurst_ok draw_count] in *.
  - destruct (fgn_cholesky_covariance h (n_steps cfg) (t_n cfg) ltac:(lra) Hn Hp) as (out & E & C).
    exists out. split; [|exact C]. intros fe i. unfold frac_noise, draws. rewrite <- E. unfold fgn_chol, fgn_cholesky.
    destruct (seed cfg); reflexivity.
  - destruct (fgn_fft_covariance h (n_steps cfg) (t_n cfg) ltac:(lra) Hn Hp) as (out & E & C).
    exists out. split; [|exact C]. intros fe i. unfold frac_noise, draws, fgn_fourier. rewrite (E (fourier_draw fe i)). cbn [bind].
    apply finite_noise_map.
Qed.

(** ** The driver: a path whose steps stay finite is the orbit of its step *)
Lemma collect_Ret {A B} (f : A -> B) l : collect (map (fun a => Ret (f a)) l) = Ret (map f l).
Proof. induction l as [|a l IH]; [reflexivity|]. cbn. rewrite IH. reflexivity. Qed.

Lemma driver_orbit fe p h m cfg sch (v : nat -> list R) (f : nat -> nat -> R -> R) :
  t_0 cfg < t_n cfg -> complete cfg sch ->
  (forall i, (i < m_paths cfg)%nat -> frac_noise fe m h cfg i = Ret (v i)) ->
  (forall i, length (v i) = n_steps cfg) ->
  (forall i j y, (i < m_paths cfg)%nat -> (j < n_steps cfg)%nat ->
     step_of (cfg_scheme cfg) p (dt cfg) (Some y) (time_at cfg j) (nth j (v i) 0) (Some 0) = Ret (Some (f i j y))) ->
  simulate_fractional fe p h m cfg sch =
    Ret (times cfg, map (fun i => map Some (orbit (f i) (x_0 cfg) 0 (n_steps cfg))) (seq 0 (m_paths cfg))).
Proof.
  intros Ht Hc Hn Hl Hs. unfold simulate_fractional, simulate, assertb. destruct (Rltb_spec (t_0 cfg) (t_n cfg)); [|lra]. cbn [bind].
  set (src := Fractional _).
  assert (S : serial_paths (base_env fe) p cfg src None = Ret (map (fun i => map Some (orbit (f i) (x_0 cfg) 0 (n_steps cfg))) (seq 0 (m_paths cfg)))).
  { unfold serial_paths. rewrite <- collect_Ret. f_equal. apply map_ext_in. intros i Hi. apply in_seq in Hi. unfold path.
    assert (N : path_noise (base_env fe) src i = Ret (fun t => unwrap (nth_error (v i) t))).
    { unfold path_noise, src. replace (match m with CHOLESKY => _ | FFT => _ end h (n_steps cfg) (t_n cfg) (seed cfg) i) with (frac_noise fe m h cfg i)
        by (destruct m; reflexivity). rewrite Hn by lia. reflexivity. }
    rewrite N. cbn [bind]. apply loop_orbit. intros j y Hj. unfold path_step. cbn beta.
    rewrite (nth_error_nth' (v i) 0) by (rewrite Hl; lia). cbn [unwrap bind jump_term]. apply Hs; lia. }
  destruct (parallel cfg); [rewrite (parallel_equals_serial _ _ _ _ _ _ Hc)|]; rewrite S; reflexivity.
Qed.

(** ** Linear steps *)
Definition weighted (q : R) (v : list R) (p : nat) : R := bs p (fun k => q ^ (p - 1 - k) * nth k v 0).
Lemma weighted_S q v p : weighted q v (S p) = q * weighted q v p + nth p v 0.
Proof.
  unfold weighted. cbn [bs]. replace (S p - 1 - p)%nat with O by lia. rewrite pow_O, Rmult_1_l. f_equal.
  rewrite <- bs_scal. apply bs_ext. intros k Hk. replace (S p - 1 - k)%nat with (S (p - 1 - k)) by lia. cbn [pow]. ring.
Qed.
Lemma linear_orbit q mu c v x n p : (p <= n)%nat ->
  nth p (orbit (fun j y => mu + q * (y - mu) + c * nth j v 0) x 0 n) 0 = mu + q ^ p * (x - mu) + c * weighted q v p.
Proof.
  induction p as [|p IH]; intros Hp.
  - rewrite orbit_hd. unfold weighted. cbn. ring.
  - rewrite orbit_nth by lia. cbn [Nat.add]. rewrite IH by lia. rewrite weighted_S. cbn [pow]. ring.
Qed.

(** what a linear recursion driven by the noise adds up to *)
Lemma weighted_load q n K out c : has_covariance n K out c -> exists load,
  (forall z p, (p <= n)%nat -> weighted q (out z) p = bs K (fun k => load p k * z k)) /\
  (forall p r, (p <= n)%nat -> (r <= n)%nat -> bs K (fun k => load p k * load r k) =
     bs p (fun i => bs r (fun j => q ^ (p - 1 - i) * q ^ (r - 1 - j) * c i j))).
Proof.
  intros (load & E & C). exists (fun p k => bs p (fun i => q ^ (p - 1 - i) * load i k)). split.
  - intros z p Hp. unfold weighted. rewrite E.
    transitivity (bs p (fun i => bs K (fun k => q ^ (p - 1 - i) * load i k * z k))).
    + apply bs_ext. intros i Hi. rewrite (nth_indep _ 0 ((fun i => bs K (fun k => load i k * z k)) O)) by (rewrite map_length, seq_length; lia).
      rewrite (map_nth (fun i => bs K (fun k => load i k * z k))), seq_nth by lia. rewrite <- bs_scal. apply bs_ext. intros; cbn [Nat.add]; ring.
    + rewrite bs_swap. apply bs_ext. intros k _. rewrite bs_scal_r. reflexivity.
  - intros p r Hp Hr.
    rewrite (bs_ext K _ (fun k => bs p (fun i => bs r (fun j => q ^ (p - 1 - i) * q ^ (r - 1 - j) * (load i k * load j k))))).
    2:{ intros k _. rewrite <- bs_scal_r. apply bs_ext. intros i _. rewrite <- bs_scal. apply bs_ext. intros; ring. }
    rewrite bs_swap. apply bs_ext. intros i Hi. rewrite bs_swap. apply bs_ext. intros j Hj. rewrite bs_scal, C by lia. reflexivity.
Qed.

(** ** Fractional Ornstein-Uhlenbeck with constant parameters *)
(** the covariance of the values at steps [p] and [r]: the fractional noise filtered by
    the mean reversion *)
Definition fou_cov (h q d : R) (p r : nat) : R :=
  bs p (fun i => bs r (fun j => q ^ (p - 1 - i) * q ^ (r - 1 - j) * (Rpower d (2 * h) * acf_entry h i j))).
Definition value_at (ps : list (list fl)) (i p : nat) : fl := nth p (nth i ps []) None.
Lemma orbit_table (F : nat -> nat -> R -> R) cfg : exists ps : list (list fl),
  ps = map (fun i => map Some (orbit (F i) (x_0 cfg) 0 (n_steps cfg))) (seq 0 (m_paths cfg)) /\ length ps = m_paths cfg /\
  forall i, (i < m_paths cfg)%nat -> length (nth i ps []) = S (n_steps cfg) /\
    forall p, (p <= n_steps cfg)%nat -> value_at ps i p = Some (nth p (orbit (F i) (x_0 cfg) 0 (n_steps cfg)) 0).
Proof.
  unfold value_at, fl. eexists. split; [reflexivity|]. split; [rewrite map_length, seq_length; reflexivity|]. intros i Hi.
  rewrite (nth_indep _ [] ((fun i => map Some (orbit (F i) (x_0 cfg) 0 (n_steps cfg))) O)) by (rewrite map_length, seq_length; exact Hi).
  rewrite (map_nth (fun i => map Some (orbit (F i) (x_0 cfg) 0 (n_steps cfg)))), seq_nth by exact Hi. cbn [Nat.add].
  split; [rewrite map_length, orbit_length; reflexivity|]. intros p Hp. apply nth_map_some. rewrite orbit_length. lia.
Qed.

Theorem fou_paths : forall mu sigma theta h m cfg, 0 <= sigma -> usable m h cfg ->
  let q := 1 - theta * dt cfg in
  exists load,
    (forall p r, (p <= n_steps cfg)%nat -> (r <= n_steps cfg)%nat ->
       bs (draw_count m (n_steps cfg)) (fun k => load p k * load r k) = fou_cov h q (t_n cfg / INR (n_steps cfg)) p r) /\
    forall fe sch f, complete cfg sch -> frac_new (fun _ => mu) (fun _ => sigma) (fun _ => theta) h m = Ret f ->
      exists ps, fou_generate fe f cfg sch = Ret (times cfg, ps) /\ length ps = m_paths cfg /\
      forall i, (i < m_paths cfg)%nat -> length (nth i ps []) = S (n_steps cfg) /\
        forall p, (p <= n_steps cfg)%nat ->
        value_at ps i p = Some (mu + q ^ p * (x_0 cfg - mu)
          + sigma * gain cfg * bs (draw_count m (n_steps cfg)) (fun k => load p k * draws fe m cfg i k)).
Proof.
  intros mu sigma theta h m cfg Hs U q. destruct (noise_answers m h cfg U) as (out & E & C).
  destruct (weighted_load q _ _ _ _ C) as (load & L1 & L2). exists load. split; [exact L2|].
  intros fe sch f Hc Hf. unfold frac_new, hurst_checked, assertb in Hf. destruct (Rleb 0 h && Rleb h 1); [|discriminate].
  assert (Ef : f = Frac (fun _ => mu) (fun _ => sigma) (fun _ => theta) h m) by congruence. subst f. clear Hf.
  destruct U as (Hh & Hn & Ht & Hp).
  assert (Len : forall z, length (out z) = n_steps cfg) by (destruct C as (l0 & C0 & _); intros z; rewrite C0, map_length, seq_length; reflexivity).
  set (v := fun i => out (draws fe m cfg i)).
  set (F := fun i (j : nat) y => mu + q * (y - mu) + sigma * gain cfg * nth j (v i) 0).
  destruct (orbit_table F cfg) as (ps & Eps & Lps & Vps).
  exists ps. split; [|split; [exact Lps|]].
  - unfold fou_generate. cbn [fr_hurst fr_method]. rewrite Eps. apply driver_orbit with (v := v); try assumption.
    + intros i _. apply E.
    + intros i. apply Len.
    + intros i j y _ _. unfold F, gain, q.
      assert (Ck : checked sigma (Some sigma) = Ret (Some sigma)) by (unfold checked, assertb; destruct (Rltb_spec sigma 0); [lra|reflexivity]).
      destruct (cfg_scheme cfg); cbn [step_of]; unfold euler_step, milstein_step, strang_step, fou_process;
        cbn [drift diffusion fr_mu fr_sigma fr_theta bind]; rewrite ?Ck; cbn; f_equal; f_equal; field.
  - intros i Hi. destruct (Vps i Hi) as (Li & Vi). split; [exact Li|]. intros p Hpn. rewrite (Vi p Hpn). f_equal. unfold F.
    rewrite linear_orbit by exact Hpn. rewrite <- L1 by exact Hpn. reflexivity.
Qed.
Print Assumptions fou_paths.

(** ** Fractional Brownian motion *)
Theorem fbm_paths : forall h m cfg, usable m h cfg ->
  exists load,
    (forall p r, (p <= n_steps cfg)%nat -> (r <= n_steps cfg)%nat ->
       bs (draw_count m (n_steps cfg)) (fun k => load p k * load r k) =
       fbm_cov h (t_n cfg / INR (n_steps cfg) * INR p) (t_n cfg / INR (n_steps cfg) * INR r)) /\
    forall fe sch b, complete cfg sch -> fbm_new h m = Ret b ->
      exists ps, fbm_generate fe b cfg sch = Ret (times cfg, ps) /\ length ps = m_paths cfg /\
      forall i, (i < m_paths cfg)%nat -> length (nth i ps []) = S (n_steps cfg) /\
        forall p, (p <= n_steps cfg)%nat ->
        value_at ps i p = Some (x_0 cfg + gain cfg * bs (draw_count m (n_steps cfg)) (fun k => load p k * draws fe m cfg i k)).
Proof.
  intros h m cfg U. destruct (noise_answers m h cfg U) as (out & E & C).
  destruct (weighted_load 1 _ _ _ _ C) as (load & L1 & L2).
  destruct U as (Hh & Hn & Ht & Hp). assert (H0 : 0 < h) by (destruct m; cbn in Hh; lra).
  exists load. split.
  { intros p r Hpn Hrn. rewrite L2 by assumption. rewrite <- scaled_block by assumption. apply bs_ext. intros i _. apply bs_ext. intros j _.
    rewrite !pow1. ring. }
  intros fe sch b Hc Hf. unfold fbm_new, hurst_checked, assertb in Hf. destruct (Rleb 0 h && Rleb h 1); [|discriminate].
  assert (Ef : b = Fbm h m) by congruence. subst b. clear Hf.
  assert (Len : forall z, length (out z) = n_steps cfg) by (destruct C as (l0 & C0 & _); intros z; rewrite C0, map_length, seq_length; reflexivity).
  set (v := fun i => out (draws fe m cfg i)).
  set (F := fun i (j : nat) y => 0 + 1 * (y - 0) + gain cfg * nth j (v i) 0).
  destruct (orbit_table F cfg) as (ps & Eps & Lps & Vps).
  exists ps. split; [|split; [exact Lps|]].
  - unfold fbm_generate. cbn [fbm_hurst fbm_method]. rewrite Eps. apply driver_orbit with (v := v); try assumption.
    + intros i _. apply E.
    + intros i. apply Len.
    + intros i j y _ _. unfold F, gain.
      destruct (cfg_scheme cfg); cbn; f_equal; f_equal; field.
  - intros i Hi. destruct (Vps i Hi) as (Li & Vi). split; [exact Li|]. intros p Hpn. rewrite (Vi p Hpn). f_equal. unfold F.
    rewrite linear_orbit by exact Hpn. rewrite <- L1 by exact Hpn. rewrite pow1. unfold v. ring.
Qed.
Print Assumptions fbm_paths.

(** the reported times are the times of the covariance exactly when the run starts at zero *)
Theorem fbm_times : forall cfg p, (0 < n_steps cfg)%nat -> (p <= n_steps cfg)%nat -> t_0 cfg = 0 ->
  nth p (times cfg) None = Some (t_n cfg / INR (n_steps cfg) * INR p).
Proof.
  intros cfg p Hn Hp H0. unfold times. destruct (n_steps cfg) as [|n] eqn:En; [lia|].
  rewrite (nth_indep _ None ((fun t => Some (time_at cfg t)) O)) by (rewrite map_length, seq_length; lia).
  rewrite (map_nth (fun t => Some (time_at cfg t))), seq_nth by lia. f_equal. unfold time_at, dt. rewrite H0, En. cbn [Nat.add]. field. apply not_0_INR. lia.
Qed.
Print Assumptions fbm_times.

(** ** What the driver does to the variance *)
(** the variance of the last value minus the first *)
Definition displacement_variance (m : fgn_method) (h : R) (cfg : config) (w : R) : Prop :=
  exists load, bs (draw_count m (n_steps cfg)) (fun k => load k * load k) = w /\
    forall fe sch b, complete cfg sch -> fbm_new h m = Ret b ->
      exists ps, fbm_generate fe b cfg sch = Ret (times cfg, ps) /\
      forall i, (i < m_paths cfg)%nat ->
        value_at ps i (n_steps cfg) = Some (x_0 cfg + bs (draw_count m (n_steps cfg)) (fun k => load k * draws fe m cfg i k)).
Lemma fbm_cov_diag h t : 0 < t -> fbm_cov h t t = Rpower t (2 * h).
Proof.
  intros Ht. unfold fbm_cov, apow. destruct (Req_EM_T t 0); [lra|]. destruct (Req_EM_T (t - t) 0); [|lra].
  rewrite Rabs_pos_eq by lra. field.
Qed.
Theorem fbm_displacement : forall h m cfg, usable m h cfg ->
  displacement_variance m h cfg (gain cfg * gain cfg * Rpower (t_n cfg) (2 * h)).
Proof.
  intros h m cfg U. destruct (fbm_paths h m cfg U) as (load & C & P). destruct U as (Hh & Hn & Ht & Hp).
  exists (fun k => gain cfg * load (n_steps cfg) k). split.
  - rewrite (bs_ext _ _ (fun k => gain cfg * gain cfg * (load (n_steps cfg) k * load (n_steps cfg) k))) by (intros; ring).
    rewrite bs_scal, C by lia.
    replace (t_n cfg / INR (n_steps cfg) * INR (n_steps cfg)) with (t_n cfg) by (field; apply not_0_INR; lia).
    rewrite fbm_cov_diag by exact Hp. reflexivity.
  - intros fe sch b Hc Hb. destruct (P fe sch b Hc Hb) as (ps & E & _ & V). exists ps. split; [exact E|]. intros i Hi.
    destruct (V i Hi) as (_ & W). rewrite W by lia. f_equal. f_equal. rewrite <- bs_scal. apply bs_ext. intros; ring.
Qed.
Print Assumptions fbm_displacement.

(** two descriptions of the same values have the same variance: a linear form in the
    draws determines its coefficients *)
Lemma linear_form_unique K (a b : nat -> R) : (forall z, bs K (fun k => a k * z k) = bs K (fun k => b k * z k)) ->
  bs K (fun k => a k * a k) = bs K (fun k => b k * b k).
Proof.
  intros H. apply bs_ext. intros k Hk. enough (a k = b k) by congruence.
  specialize (H (fun i => if Nat.eqb i k then 1 else 0)).
  rewrite (bs_ext K _ (fun i => if Nat.eqb i k then a i else 0)) in H by (intros i _; destruct (Nat.eqb i k); ring).
  rewrite (bs_ext K (fun i => b i * _) (fun i => if Nat.eqb i k then b i else 0)) in H by (intros i _; destruct (Nat.eqb i k); ring).
  rewrite !bs_delta in H by exact Hk. exact H.
Qed.
(** an environment with given draws for every path *)
Definition env_of (z : nat -> R) : fenv := Fenv (Env (fun _ => z) 0 (fun _ _ => 0) (fun _ _ _ => 0)) (fun _ => z) (fun _ => z).
Lemma draws_env_of z m cfg i k : draws (env_of z) m cfg i k = z k.
Proof. destruct m; cbn; [destruct (seed cfg)|]; reflexivity. Qed.
Definition full_schedule (cfg : config) : list nat := concat (repeat (seq 0 (m_paths cfg)) (n_steps cfg)).
Lemma count_app i a b : count i (a ++ b) = (count i a + count i b)%nat.
Proof. induction a as [|x a IH]; [reflexivity|]. cbn. rewrite IH. lia. Qed.
Lemma count_seq i n : forall a, (a <= i < a + n)%nat -> (1 <= count i (seq a n))%nat.
Proof. induction n as [|n IH]; intros a H; [lia|]. cbn. destruct (Nat.eqb_spec i a); [lia|]. specialize (IH (S a)). lia. Qed.
Lemma full_schedule_complete cfg : complete cfg (full_schedule cfg).
Proof.
  intros i Hi. unfold full_schedule. generalize (n_steps cfg) as n. induction n as [|n IH]; [cbn; lia|].
  cbn [repeat concat]. rewrite count_app. pose proof (count_seq i (m_paths cfg) 0 ltac:(lia)). lia.
Qed.
Theorem displacement_variance_unique : forall m h cfg w w', (0 < m_paths cfg)%nat -> 0 <= h <= 1 ->
  displacement_variance m h cfg w -> displacement_variance m h cfg w' -> w = w'.
Proof.
  intros m h cfg w w' Hm Hh (a & <- & A) (b & <- & B). apply linear_form_unique. intros z.
  assert (N : fbm_new h m = Ret (Fbm h m)).
  { unfold fbm_new, hurst_checked, assertb. unfold Rleb. destruct (Rle_dec 0 h); [|lra]. destruct (Rle_dec h 1); [|lra]. reflexivity. }
  destruct (A (env_of z) _ _ (full_schedule_complete cfg) N) as (ps & E & V).
  destruct (B (env_of z) _ _ (full_schedule_complete cfg) N) as (ps' & E' & V').
  assert (ps' = ps) by congruence. subst ps'. specialize (V O Hm). specialize (V' O Hm). rewrite V in V'.
  injection V' as V'. apply Rplus_eq_reg_l in V'.
  rewrite (bs_ext _ _ (fun k => a k * z k)) in V' by (intros; rewrite draws_env_of; reflexivity).
  rewrite (bs_ext _ (fun k => b k * _) (fun k => b k * z k)) in V' by (intros; rewrite draws_env_of; reflexivity).
  exact V'.
Qed.
Print Assumptions displacement_variance_unique.

Lemma hurst_range m h : hurst_ok m h -> 0 < h <= 1.
Proof. destruct m; cbn; lra. Qed.

(** Finding: the noise is generated for the length [t_n], so a run that starts later
    than zero has too large a variance for the time that passes *)
Theorem fbm_start_time_refuted : forall h m cfg, usable m h cfg -> cfg_scheme cfg <> EulerMaruyama -> (0 < m_paths cfg)%nat -> 0 < t_0 cfg ->
  ~ displacement_variance m h cfg (Rpower (t_n cfg - t_0 cfg) (2 * h)).
Proof.
  intros h m cfg U Hs Hm H0 D. pose proof (fbm_displacement h m cfg U) as D'. destruct U as (Hh & Hn & Ht & Hp). apply hurst_range in Hh.
  pose proof (displacement_variance_unique m h cfg _ _ Hm ltac:(lra) D D') as E.
  assert (G : gain cfg = 1) by (unfold gain; destruct (cfg_scheme cfg); congruence). rewrite G in E.
  assert (L : Rpower (t_n cfg - t_0 cfg) (2 * h) < Rpower (t_n cfg) (2 * h)) by (unfold Rpower; apply exp_increasing, Rmult_lt_compat_l; [lra|apply ln_increasing; lra]).
  lra.
Qed.
Print Assumptions fbm_start_time_refuted.

(** Finding: under the Euler scheme, which is the one whose step is right for ordinary
    Brownian motion, the driver multiplies the fractional increments by another
    sqrt(dt): the variance is wrong by the factor dt and vanishes as the grid is refined *)
Theorem fbm_euler_vanishes_refuted : forall h m cfg, usable m h cfg -> cfg_scheme cfg = EulerMaruyama -> (0 < m_paths cfg)%nat -> t_0 cfg = 0 ->
  (forall w, displacement_variance m h cfg w <-> w = t_n cfg / INR (n_steps cfg) * Rpower (t_n cfg) (2 * h)) /\
  is_lim_seq (fun n => t_n cfg / INR n * Rpower (t_n cfg) (2 * h)) 0 /\ 0 < Rpower (t_n cfg) (2 * h).
Proof.
  intros h m cfg U Hs Hm H0. pose proof (fbm_displacement h m cfg U) as D'. destruct U as (Hh & Hn & Ht & Hp). apply hurst_range in Hh.
  assert (G : gain cfg * gain cfg = t_n cfg / INR (n_steps cfg)).
  { unfold gain. rewrite Hs, sqrt_sqrt; unfold dt; rewrite H0, Rminus_0_r; [reflexivity|]. left. apply Rdiv_lt_0_compat; [exact Hp|apply lt_0_INR; lia]. }
  rewrite G in D'. split; [|split].
  - intros w. split; [|intros ->; exact D']. intros D. apply (displacement_variance_unique m h cfg _ _ Hm ltac:(lra) D D').
  - replace (Finite 0) with (Rbar_mult (Finite 0) (Finite (Rpower (t_n cfg) (2 * h)))) by (cbn; f_equal; ring).
    apply is_lim_seq_scal_r.
    apply is_lim_seq_ext with (fun n => t_n cfg * / INR n); [reflexivity|].
    replace (Finite 0) with (Rbar_mult (t_n cfg) (Finite 0)) by (cbn; f_equal; ring). apply is_lim_seq_scal_l.
    replace (Finite 0) with (Rbar_inv p_infty) by reflexivity. apply is_lim_seq_inv; [apply is_lim_seq_INR|discriminate].
  - apply exp_pos.
Qed.
Print Assumptions fbm_euler_vanishes_refuted.

(** Finding: the Fourier method does not use the seed; two runs of the same seeded
    configuration, with the same seeded generator, differ *)
Theorem fourier_seed_ignored_refuted : forall h cfg s, usable FFT h cfg -> seed cfg = Some s -> (0 < m_paths cfg)%nat ->
  exists fe fe' b sch ts ps ps', base_env fe = base_env fe' /\ fbm_new h FFT = Ret b /\ complete cfg sch /\
    fbm_generate fe b cfg sch = Ret (ts, ps) /\ fbm_generate fe' b cfg sch = Ret (ts, ps') /\
    value_at ps 0 (n_steps cfg) <> value_at ps' 0 (n_steps cfg).
Proof.
  intros h cfg s U Hs Hm. destruct (fbm_displacement h FFT cfg U) as (load & C & P). pose proof U as (Hh & Hn & Ht & Hp). cbn in Hh.
  assert (N : fbm_new h FFT = Ret (Fbm h FFT)).
  { unfold fbm_new, hurst_checked, assertb. unfold Rleb. destruct (Rle_dec 0 h); [|lra]. destruct (Rle_dec h 1); [|lra]. reflexivity. }
  set (e0 := Env (fun _ _ => 0) 0 (fun _ _ => 0) (fun _ _ _ => 0)).
  destruct (P (Fenv e0 (fun _ _ => 0) (fun _ => load)) _ _ (full_schedule_complete cfg) N) as (ps & E & V).
  destruct (P (Fenv e0 (fun _ _ => 0) (fun _ _ => 0)) _ _ (full_schedule_complete cfg) N) as (ps' & E' & V').
  exists (Fenv e0 (fun _ _ => 0) (fun _ => load)), (Fenv e0 (fun _ _ => 0) (fun _ _ => 0)), (Fbm h FFT), (full_schedule cfg), (times cfg), ps, ps'.
  split; [reflexivity|]. split; [exact N|]. split; [apply full_schedule_complete|]. split; [exact E|]. split; [exact E'|].
  rewrite (V O Hm), (V' O Hm). cbn [draws fourier_draw]. rewrite C.
  rewrite (bs_ext _ (fun k => load k * 0) (fun _ => 0)) by (intros; ring). rewrite bs_zero. intros Q. injection Q as Q.
  assert (0 < gain cfg * gain cfg * Rpower (t_n cfg) (2 * h)); [|lra].
  assert (0 < gain cfg).
  { unfold gain. destruct (cfg_scheme cfg); try lra. apply sqrt_lt_R0. unfold dt. apply Rdiv_lt_0_compat; [lra|apply lt_0_INR; lia]. }
  apply Rmult_lt_0_compat; [apply Rmult_lt_0_compat; assumption|apply exp_pos].
Qed.
Print Assumptions fourier_seed_ignored_refuted.

(** ** The constructors *)
Theorem fractional_constructors : forall h m mu sigma theta,
  (0 <= h <= 1 -> fbm_new h m = Ret (Fbm h m) /\ frac_new mu sigma theta h m = Ret (Frac mu sigma theta h m)) /\
  (h < 0 \/ 1 < h -> fbm_new h m = Panic /\ frac_new mu sigma theta h m = Panic) /\
  fbm_default = Ret (Fbm (1 / 2) FFT).
Proof.
  intros. unfold fbm_default, fbm_new, frac_new, hurst_checked, assertb, Rleb.
  destruct (Rle_dec 0 h), (Rle_dec h 1), (Rle_dec 0 (1 / 2)), (Rle_dec (1 / 2) 1); cbn; repeat split; try reflexivity; lra.
Qed.
Print Assumptions fractional_constructors.
Theorem fractional_needs_time : forall fe f b cfg sch, t_n cfg <= t_0 cfg ->
  fbm_generate fe b cfg sch = Panic /\ fou_generate fe f cfg sch = Panic /\ fcir_generate fe f cfg sch = Panic.
Proof.
  intros fe f b cfg sch H. unfold fbm_generate, fou_generate, fcir_generate, simulate_fractional, simulate, assertb.
  destruct (Rltb_spec (t_0 cfg) (t_n cfg)); [lra|]. auto.
Qed.
Print Assumptions fractional_needs_time.

(** ** Fractional Cox-Ingersoll-Ross *)
(** with a nonnegative volatility it takes the steps of the ordinary process *)
Theorem fcir_steps : forall f s h x t z, (forall u, 0 <= fr_sigma f u) ->
  step_of s (fcir_process f) h x t z (Some 0) = step_of s (cir (fr_mu f) (fr_sigma f) (fr_theta f)) h x t z (Some 0).
Proof.
  intros f s h x t z Hs.
  assert (C : forall u v, checked (fr_sigma f u) v = Ret v) by (intros u v; unfold checked, assertb; destruct (Rltb_spec (fr_sigma f u) 0); [specialize (Hs u); lra|reflexivity]).
  destruct s; cbn [step_of]; unfold euler_step, milstein_step, strang_step, fcir_process, cir; cbn [drift diffusion bind]; rewrite ?C; cbn [bind]; rewrite ?C; reflexivity.
Qed.
Print Assumptions fcir_steps.
Theorem fcir_step_real : forall f h x t z, 0 <= x ->
  euler_step (fcir_process f) h (Some x) t z (Some 0) =
  Ret (Some (x + fr_theta f t * (fr_mu f t - x) * h + fr_sigma f t * sqrt x * sqrt h * z)).
Proof.
  intros f h x t z Hx. unfold euler_step, fcir_process. cbn. destruct (Rltb_spec x 0); [lra|]. cbn. f_equal. f_equal. ring.
Qed.
Print Assumptions fcir_step_real.
Theorem fcir_negative_nan : forall f s h x t z j, x + 1 / 100000 < 0 -> x + 1 / 2 * (fr_theta f t * (fr_mu f t - x)) * h < 0 ->
  step_of s (fcir_process f) h (Some x) t z j = Ret None.
Proof.
  intros f s h x t z j Hx Hy. destruct s; cbn [step_of]; unfold euler_step, milstein_step, strang_step, fcir_process; cbn.
  - destruct (Rltb_spec x 0); [reflexivity|lra].
  - destruct (Rltb_spec x 0); [reflexivity|lra].
  - match goal with |- context [Rltb ?a 0] => destruct (Rltb_spec a 0) as [A|A] end; [reflexivity|]. exfalso. lra.
Qed.
Print Assumptions fcir_negative_nan.
(** Finding: the volatility is not checked here, unlike in the other mean-reverting
    processes: a negative one is accepted and mirrors the noise *)
Theorem fcir_negative_volatility_refuted : forall mu sigma theta h m fe cfg sch, usable m h cfg -> complete cfg sch -> (0 < m_paths cfg)%nat -> sigma < 0 ->
  let f := Frac (fun _ => mu) (fun _ => sigma) (fun _ => theta) h m in
  fou_generate fe f cfg sch = Panic /\
  (forall hh x t z, 0 <= x -> exists y, euler_step (fcir_process f) hh (Some x) t z (Some 0) = Ret (Some y) /\
     euler_step (fcir_process (Frac (fun _ => mu) (fun _ => - sigma) (fun _ => theta) h m)) hh (Some x) t (- z) (Some 0) = Ret (Some y)).
Proof.
  intros mu sigma theta h m fe cfg sch U Hc Hm Hs f. split.
  - unfold fou_generate, simulate_fractional, simulate, assertb. destruct (noise_answers m h cfg U) as (out & E & _).
    destruct U as (Hh & Hn & Ht & Hp). destruct (Rltb_spec (t_0 cfg) (t_n cfg)); [|lra]. cbn [bind fr_hurst fr_method f].
    set (src := Fractional _).
    assert (S : serial_paths (base_env fe) (fou_process f) cfg src None = Panic).
    { unfold serial_paths. destruct (m_paths cfg) as [|k]; [lia|]. cbn [seq map collect].
      assert (P : path (base_env fe) (fou_process f) cfg src None 0 = Panic); [|rewrite P; reflexivity].
      unfold path.
      assert (N : path_noise (base_env fe) src 0 = Ret (fun t => unwrap (nth_error (out (draws fe m cfg 0)) t))).
      { unfold path_noise, src. replace (match m with CHOLESKY => _ | FFT => _ end h (n_steps cfg) (t_n cfg) (seed cfg) 0%nat) with (frac_noise fe m h cfg 0)
          by (destruct m; reflexivity). rewrite E. reflexivity. }
      rewrite N. cbn [bind]. destruct (n_steps cfg) as [|n]; [lia|]. cbn [path_loop].
      match goal with |- (let! x' := ?a in _) = _ => assert (Q : a = Panic); [|rewrite Q; reflexivity] end.
      unfold path_step. destruct (unwrap (nth_error (out (draws fe m cfg 0)) 0)) as [z| |] eqn:Ez; cbn [bind].
      - destruct (cfg_scheme cfg); cbn; unfold checked, assertb; destruct (Rltb_spec sigma 0); try lra; reflexivity.
      - reflexivity.
      - destruct (nth_error (out (draws fe m cfg 0)) 0); discriminate. }
    destruct (parallel cfg); [rewrite (parallel_equals_serial _ _ _ _ _ _ Hc)|]; rewrite S; reflexivity.
  - intros hh x t z Hx. eexists. rewrite !fcir_step_real by exact Hx. split; [reflexivity|]. cbn. f_equal. f_equal. ring.
Qed.
Print Assumptions fcir_negative_volatility_refuted.

(** ** Cases *)
Definition frac_case : config := Config 1 0 2 4 StrangSplitting 3 true (Some 7%Z).
Example frac_case_usable : usable CHOLESKY (7 / 10) frac_case /\ usable FFT 1 frac_case /\ complete frac_case (full_schedule frac_case).
Proof. split; [|split]; [unfold usable; cbn; repeat split; lra || lia..|apply full_schedule_complete]. Qed.
Example frac_case_runs : exists ps, fou_generate (env_of INR) (Frac (fun _ => 1) (fun _ => 2) (fun _ => 3) (7 / 10) CHOLESKY) frac_case (full_schedule frac_case) = Ret (times frac_case, ps).
Proof.
  destruct (fou_paths 1 2 3 (7 / 10) CHOLESKY frac_case ltac:(lra) (proj1 frac_case_usable)) as (load & _ & P).
  destruct (P (env_of INR) _ (Frac (fun _ => 1) (fun _ => 2) (fun _ => 3) (7 / 10) CHOLESKY) (full_schedule_complete frac_case)) as (ps & E & _).
  - apply fractional_constructors. lra.
  - exists ps. exact E.
Qed.
Example frac_case_late : usable FFT (1 / 2) (Config 0 1 2 4 Milstein 1 false (Some 3%Z)) /\ usable FFT (1 / 2) (Config 0 0 2 4 EulerMaruyama 1 false None).
Proof. split; unfold usable; cbn; repeat split; lra || lia. Qed.
