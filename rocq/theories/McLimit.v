(** C90, continued: which payoffs have an expected Monte-Carlo price, and convergence of
    the Monte-Carlo price of a vanilla option to its closed form. *)
From Coq Require Import Reals List ZArith Lra Lia.
From Coquelicot Require Import Coquelicot.
From Verif Require Import Res InterpModel InterpProofs RList StatModel PayoffModel PayoffProps SpecialFns RGen DistModel DistGauss BsmModel BsmProofs BsmProps SimModel SimProps SimMoments SimLimits GaussExp RiskNeutral McPrice.
Import ListNotations.
Open Scope R_scope.

(** ** Functions of at most quadratic growth, with the matching continuity *)
Definition tame (V : R -> R) : Prop := exists C, 0 <= C /\ forall x y, Rabs (V x - V y) <= C * (1 + Rabs x + Rabs y) * Rabs (x - y).
Definition tame_step (g : R -> R -> R) : Prop := exists A, 0 <= A /\
  (forall x z, Rabs (g x z) <= A * (1 + Rabs z) * (1 + Rabs x)) /\ (forall x y z, Rabs (g x z - g y z) <= A * (1 + Rabs z) * Rabs (x - y)) /\ (forall x z, continuous (g x) z).

Lemma tame_cont V : tame V -> forall x, continuous V x.
Proof.
  intros (C & HC & H) x. apply continuity_pt_filterlim. intros eps He.
  set (D := C * (2 + 2 * Rabs x) + 1). assert (DP : 0 < D) by (unfold D; pose proof (Rabs_pos x); nra).
  exists (Rmin 1 (eps / D)). split; [apply Rmin_glb_lt; [lra|apply Rdiv_lt_0_compat; assumption]|].
  intros y [_ Hy]. simpl in *. unfold R_dist in *.
  assert (Y1 : Rabs (y - x) < 1) by (apply Rlt_le_trans with (1 := Hy), Rmin_l). assert (Y2 : Rabs (y - x) < eps / D) by (apply Rlt_le_trans with (1 := Hy), Rmin_r).
  assert (Y3 : Rabs y <= Rabs x + 1). { replace y with (x + (y - x)) by ring. pose proof (Rabs_triang x (y - x)). lra. }
  apply Rle_lt_trans with (1 := H y x). apply Rle_lt_trans with (D * Rabs (y - x)).
  - apply Rmult_le_compat_r; [apply Rabs_pos|]. unfold D. assert (C * (1 + Rabs y + Rabs x) <= C * (2 + 2 * Rabs x)) by (apply Rmult_le_compat_l; lra). lra.
  - apply (Rmult_lt_compat_l D) in Y2; [|exact DP]. replace (D * (eps / D)) with eps in Y2 by (field; lra). exact Y2.
Qed.
Lemma growth1 z : 0 <= 1 + Rabs z <= 2 * (1 + z ^ 2).
Proof. pose proof (Rabs_pos z). pose proof (pow2_abs z) as S. pose proof (pow2_ge_0 (Rabs z - 1)). split; [lra|]. nra. Qed.
Lemma growth2 z : (1 + Rabs z) * (1 + Rabs z) <= 2 * (1 + z ^ 2).
Proof. pose proof (pow2_abs z) as S. pose proof (pow2_ge_0 (Rabs z - 1)). nra. Qed.

Lemma tame_transition V g : tame V -> tame_step g -> exists W, tame W /\ forall x, std_E (fun z => V (g x z)) (W x).
Proof.
  intros HV (A & HA & G1 & G2 & G3). pose proof (tame_cont V HV) as CV. destruct HV as (C & HC & H).
  assert (EX : forall x, exists e, std_E (fun z => V (g x z)) e).
  { intro x. set (B := A * (1 + Rabs x)). assert (HB : 0 <= B) by (unfold B; pose proof (Rabs_pos x); nra).
    apply (std_quad_exists _ (Rabs (V 0) + 2 * C * B + 2 * C * B * B)).
    - intro z. apply (continuous_comp (g x) V); [apply G3|apply CV].
    - intro z. specialize (G1 x z). replace (A * (1 + Rabs z) * (1 + Rabs x)) with (B * (1 + Rabs z)) in G1 by (unfold B; ring).
      pose proof (H (g x z) 0) as K. rewrite Rminus_0_r, Rabs_R0, Rplus_0_r in K. pose proof (Rabs_triang (V (g x z) - V 0) (V 0)) as TR. replace (V (g x z) - V 0 + V 0) with (V (g x z)) in TR by ring.
      set (y := Rabs (g x z)) in *. assert (Y : 0 <= y) by apply Rabs_pos. pose proof (growth1 z) as [P1 P2]. pose proof (growth2 z) as P3. set (p := 1 + Rabs z) in *. set (w := 1 + z ^ 2) in *.
      assert (K2 : C * (1 + y) * y <= C * (1 + B * p) * (B * p)).
      { rewrite !Rmult_assoc. apply Rmult_le_compat_l; [exact HC|]. apply Rmult_le_compat; lra. }
      assert (K3 : B * p <= B * (2 * w)) by (apply Rmult_le_compat_l; lra). assert (K4 : B * B * (p * p) <= B * B * (2 * w)) by (apply Rmult_le_compat_l; [apply Rmult_le_pos; lra|lra]).
      assert (K5 : C * (1 + B * p) * (B * p) <= C * (B * (2 * w) + B * B * (2 * w))). { replace (C * (1 + B * p) * (B * p)) with (C * (B * p + B * B * (p * p))) by ring. apply Rmult_le_compat_l; lra. }
      assert (W1 : 1 <= w) by (unfold w; pose proof (pow2_ge_0 z); lra). pose proof (Rabs_pos (V 0)) as V0.
      assert (K6 : Rabs (V 0) * 1 <= Rabs (V 0) * w) by (apply Rmult_le_compat_l; lra). lra. }
  set (W := fun x => RInt_gen (V:=R_CompleteNormedModule) (fun z => npdf z * V (g x z)) (Rbar_locally m_infty) (Rbar_locally p_infty)).
  assert (HW : forall x, std_E (fun z => V (g x z)) (W x)). { intro x. destruct (EX x) as [e He]. unfold W. rewrite (is_RInt_gen_unique (V:=R_CompleteNormedModule) _ _ He). exact He. }
  exists W. split; [|exact HW]. exists (C * A * (2 + 4 * A) * 2). split; [repeat apply Rmult_le_pos; lra|]. intros x y.
  pose proof (std_lin _ _ 1 (-1) _ _ (HW x) (HW y)) as D. cbv beta in D. replace (W x - W y) with (1 * W x + -1 * W y) by ring.
  set (s := 1 + Rabs x + Rabs y). set (d := Rabs (x - y)). assert (Hs : 1 <= s) by (unfold s; pose proof (Rabs_pos x); pose proof (Rabs_pos y); lra). assert (Hd : 0 <= d) by apply Rabs_pos.
  set (c := C * A * (2 + 4 * A) * s * d). replace (C * A * (2 + 4 * A) * 2 * s * d) with (c + c) by (unfold c; ring).
  apply (std_abs_le _ (fun z => c + c * z ^ 2) _ _) with (2 := D); [|apply std_quad_dom]. intro z. replace (1 * V (g x z) + -1 * V (g y z)) with (V (g x z) - V (g y z)) by ring.
  apply Rle_trans with (1 := H _ _). pose proof (G1 x z) as Gx. pose proof (G1 y z) as Gy. pose proof (G2 x y z) as Gd. fold d in Gd. pose proof (growth1 z) as [P1 P2]. pose proof (growth2 z) as P3.
  set (p := 1 + Rabs z) in *. set (w := 1 + z ^ 2) in *. replace (c + c * z ^ 2) with (c * w) by (unfold w; ring).
  assert (S1 : 1 + Rabs (g x z) + Rabs (g y z) <= 1 + 2 * A * p * s).
  { assert (E : A * p * (1 + Rabs x) + A * p * (1 + Rabs y) <= 2 * A * p * s); [|lra]. replace (A * p * (1 + Rabs x) + A * p * (1 + Rabs y)) with (A * p * (s + 1)) by (unfold s; ring). replace (2 * A * p * s) with (A * p * (2 * s)) by ring. apply Rmult_le_compat_l; [apply Rmult_le_pos; lra|lra]. }
  pose proof (Rabs_pos (g x z)). pose proof (Rabs_pos (g y z)). pose proof (Rabs_pos (g x z - g y z)).
  apply Rle_trans with (C * (1 + 2 * A * p * s) * (A * p * d)).
  { rewrite !(Rmult_assoc C). apply Rmult_le_compat_l; [exact HC|]. apply Rmult_le_compat; lra. }
  replace (C * (1 + 2 * A * p * s) * (A * p * d)) with (C * A * d * (p + 2 * A * s * (p * p))) by ring. replace (c * w) with (C * A * d * (2 * w * s + 2 * A * s * (2 * w))) by (unfold c; ring).
  apply Rmult_le_compat_l; [repeat apply Rmult_le_pos; lra|]. apply Rplus_le_compat.
  - apply Rle_trans with (2 * w); [lra|]. rewrite <- (Rmult_1_r (2 * w)) at 1. apply Rmult_le_compat_l; lra.
  - apply Rmult_le_compat_l; [repeat apply Rmult_le_pos; lra|lra].
Qed.
Lemma tame_expect (g : nat -> R -> R -> R) V : (forall t, tame_step (g t)) -> tame V -> forall k t, exists W, tame W /\ forall x, expect k (fun l => V (run g t x l)) (W x).
Proof.
  intros HG HV. induction k as [|k IH]; intro t; [exists V; split; [exact HV|intro x; reflexivity]|].
  destruct (IH (S t)) as (W & W1 & W2). destruct (tame_transition W (g t) W1 (HG t)) as (U & U1 & U2). exists U. split; [exact U1|]. intro x. simpl. exists (fun z => W (g t x z)). split; [intro z; apply W2|apply U2].
Qed.

(** ** Lipschitz processes and payoffs *)
Definition lipschitz (f : R -> R) : Prop := exists L, 0 <= L /\ forall x y, Rabs (f x - f y) <= L * Rabs (x - y).
(** drift and diffusion are finite and Lipschitz in the state at every time *)
Definition lipschitz_process (p : process) (a s : R -> R -> R) : Prop := forall t,
  lipschitz (fun x => a x t) /\ lipschitz (fun x => s x t) /\
  forall x, drift p (Some x) t = Ret (Some (a x t)) /\ diffusion p (Some x) t = Ret (Some (s x t)).

Lemma lipschitz_tame f : lipschitz f -> tame f.
Proof.
  intros (L & HL & H). exists L. split; [exact HL|]. intros x y. apply Rle_trans with (1 := H x y). apply Rmult_le_compat_r; [apply Rabs_pos|]. rewrite <- (Rmult_1_r L) at 1. apply Rmult_le_compat_l; [exact HL|]. pose proof (Rabs_pos x). pose proof (Rabs_pos y). lra.
Qed.
Lemma lipschitz_growth f : lipschitz f -> exists B, 0 <= B /\ forall x, Rabs (f x) <= B * (1 + Rabs x).
Proof.
  intros (L & HL & H). exists (Rabs (f 0) + L). pose proof (Rabs_pos (f 0)). split; [lra|]. intro x. specialize (H x 0). rewrite Rminus_0_r in H. pose proof (Rabs_triang (f x - f 0) (f 0)) as T. replace (f x - f 0 + f 0) with (f x) in T by ring. pose proof (Rabs_pos x). nra.
Qed.
Lemma lipschitz_square f c : lipschitz f -> tame (fun x => (f x - c) ^ 2).
Proof.
  intros HF. destruct (lipschitz_growth f HF) as (B & HB & G). destruct HF as (L & HL & H). pose proof (Rabs_pos c) as PC. exists (L * (2 * B + 2 * Rabs c)). split; [apply Rmult_le_pos; lra|]. intros x y.
  replace ((f x - c) ^ 2 - (f y - c) ^ 2) with ((f x + f y - 2 * c) * (f x - f y)) by ring. rewrite Rabs_mult. pose proof (Rabs_pos x). pose proof (Rabs_pos y).
  assert (S : Rabs (f x + f y - 2 * c) <= (2 * B + 2 * Rabs c) * (1 + Rabs x + Rabs y)).
  { pose proof (Rabs_triang (f x + f y) (- (2 * c))) as T1. pose proof (Rabs_triang (f x) (f y)) as T2. rewrite Rabs_Ropp, (Rabs_mult 2), (Rabs_right 2) in T1 by lra. pose proof (G x). pose proof (G y).
    unfold Rminus. apply Rle_trans with (B * (1 + Rabs x) + B * (1 + Rabs y) + 2 * Rabs c); [lra|]. nra. }
  apply Rle_trans with ((2 * B + 2 * Rabs c) * (1 + Rabs x + Rabs y) * (L * Rabs (x - y))); [apply Rmult_le_compat; try apply Rabs_pos; [exact S|apply H]|right; ring].
Qed.
Lemma euler_tame a s h : lipschitz a -> lipschitz s -> 0 <= h -> tame_step (fun y z => y + a y * h + s y * (sqrt h * z)).
Proof.
  intros HA HS Hh. destruct (lipschitz_growth a HA) as (Ba & PBa & Ga). destruct (lipschitz_growth s HS) as (Bs & PBs & Gs). destruct HA as (La & PLa & Ha), HS as (Ls & PLs & HSs). pose proof (sqrt_pos h) as Q.
  exists (1 + (Ba + La) * h + (Bs + Ls) * sqrt h). assert (N1 : 0 <= (Ba + La) * h) by (apply Rmult_le_pos; lra). assert (N2 : 0 <= (Bs + Ls) * sqrt h) by (apply Rmult_le_pos; lra).
  split; [lra|]. split; [|split].
  - intros x z. pose proof (Rabs_pos x) as X. pose proof (Rabs_pos z) as Z. pose proof (Rabs_triang (x + a x * h) (s x * (sqrt h * z))) as T1. pose proof (Rabs_triang x (a x * h)) as T2.
    rewrite !Rabs_mult in T1. rewrite Rabs_mult in T2. rewrite (Rabs_right h) in T2 by lra. rewrite (Rabs_right (sqrt h)) in T1 by lra.
    assert (E1 : Rabs (a x) * h <= Ba * (1 + Rabs x) * h) by (apply Rmult_le_compat_r; [lra|apply Ga]).
    assert (E2 : Rabs (s x) * (sqrt h * Rabs z) <= Bs * (1 + Rabs x) * (sqrt h * Rabs z)) by (apply Rmult_le_compat_r; [apply Rmult_le_pos; lra|apply Gs]).
    assert (F1 : 0 <= Ba * h) by (apply Rmult_le_pos; lra). assert (F2 : 0 <= La * h) by (apply Rmult_le_pos; lra). assert (F3 : 0 <= Bs * sqrt h) by (apply Rmult_le_pos; lra). assert (F4 : 0 <= Ls * sqrt h) by (apply Rmult_le_pos; lra).
    apply Rle_trans with ((1 + Ba * h + Bs * sqrt h * Rabs z) * (1 + Rabs x)); [lra|]. apply Rmult_le_compat_r; [lra|]. set (u := Rabs z) in *.
    replace ((1 + (Ba + La) * h + (Bs + Ls) * sqrt h) * (1 + u)) with (1 + Ba * h + Bs * sqrt h * u + (u * (1 + Ba * h) + La * h * (1 + u) + Ls * sqrt h * (1 + u) + Bs * sqrt h)) by ring.
    assert (0 <= u * (1 + Ba * h) + La * h * (1 + u) + Ls * sqrt h * (1 + u) + Bs * sqrt h); [|lra]. repeat apply Rplus_le_le_0_compat; try apply Rmult_le_pos; lra.
  - intros x y z. pose proof (Rabs_pos (x - y)) as X. pose proof (Rabs_pos z) as Z.
    replace (x + a x * h + s x * (sqrt h * z) - (y + a y * h + s y * (sqrt h * z))) with ((x - y) + (a x - a y) * h + (s x - s y) * (sqrt h * z)) by ring.
    pose proof (Rabs_triang ((x - y) + (a x - a y) * h) ((s x - s y) * (sqrt h * z))) as T1. pose proof (Rabs_triang (x - y) ((a x - a y) * h)) as T2.
    rewrite !Rabs_mult in T1. rewrite Rabs_mult in T2. rewrite (Rabs_right h) in T2 by lra. rewrite (Rabs_right (sqrt h)) in T1 by lra.
    assert (E1 : Rabs (a x - a y) * h <= La * Rabs (x - y) * h) by (apply Rmult_le_compat_r; [lra|apply Ha]).
    assert (E2 : Rabs (s x - s y) * (sqrt h * Rabs z) <= Ls * Rabs (x - y) * (sqrt h * Rabs z)) by (apply Rmult_le_compat_r; [apply Rmult_le_pos; lra|apply HSs]).
    assert (F1 : 0 <= Ba * h) by (apply Rmult_le_pos; lra). assert (F2 : 0 <= La * h) by (apply Rmult_le_pos; lra). assert (F3 : 0 <= Bs * sqrt h) by (apply Rmult_le_pos; lra). assert (F4 : 0 <= Ls * sqrt h) by (apply Rmult_le_pos; lra).
    apply Rle_trans with ((1 + La * h + Ls * sqrt h * Rabs z) * Rabs (x - y)); [lra|]. apply Rmult_le_compat_r; [lra|]. set (u := Rabs z) in *.
    replace ((1 + (Ba + La) * h + (Bs + Ls) * sqrt h) * (1 + u)) with (1 + La * h + Ls * sqrt h * u + (u * (1 + La * h) + Ba * h * (1 + u) + Bs * sqrt h * (1 + u) + Ls * sqrt h)) by ring.
    assert (0 <= u * (1 + La * h) + Ba * h * (1 + u) + Bs * sqrt h * (1 + u) + Ls * sqrt h); [|lra]. repeat apply Rplus_le_le_0_compat; try apply Rmult_le_pos; lra.
  - intros x z. apply (ex_derive_continuous (K:=R_AbsRing) (V:=R_NormedModule) (fun z => x + a x * h + s x * (sqrt h * z))). auto_derive. exact I.
Qed.

(** ** Unbiasedness for every Lipschitz process and path-independent Lipschitz payoff *)
Lemma path_orbit p cfg (g : nat -> R -> R -> R) :
  (forall j y z, step_of (cfg_scheme cfg) p (dt cfg) (Some y) (time_at cfg j) z (Some 0) = Ret (Some (g j y z))) ->
  forall l, length l = n_steps cfg -> exists xs, path (draws l) p cfg (Dynamic 0) None 0 = Ret (map Some xs) /\ path_independent xs = run g 0 (x_0 cfg) l.
Proof.
  intros H l Hl. exists (orbit (fun j y => g j y (nth j l 0)) (x_0 cfg) 0 (n_steps cfg)). split.
  - rewrite path_dyn. apply loop_orbit. intros j y _. unfold path_step. cbn [bind jump_term]. apply H.
  - rewrite <- Hl, <- (orbit_run g l []). cbn [length app]. set (o := orbit _ _ _ _). unfold path_independent, last_opt.
    assert (NE : o <> []) by (unfold o; destruct (length l); discriminate). destruct (exists_last NE) as (o' & x & ->). rewrite last_last, app_length. cbn [length]. replace (length o' + 1 - 1)%nat with (length o') by lia.
    rewrite nth_error_app2, Nat.sub_diag by lia. reflexivity.
Qed.
Theorem mc_lipschitz : forall p a s cfg rate schedule (f : R -> R), lipschitz_process p a s -> lipschitz f ->
  cfg_scheme cfg = EulerMaruyama -> t_0 cfg < t_n cfg -> (0 < n_steps cfg)%nat -> (0 < m_paths cfg)%nat -> (Z.of_nat (m_paths cfg) <= 2 ^ 64)%Z -> complete cfg schedule ->
  let df := exp (- (rate * (t_n cfg - t_0 cfg))) in
  exists mu q P, expected p cfg (fun x _ => f x) mu /\ expected p cfg (fun x _ => (f x - mu) ^ 2) q /\
    (forall l, length l = (m_paths cfg * n_steps cfg)%nat -> mc_returns p cfg (fun xs => Ret (f (path_independent xs))) rate schedule l (P l)) /\
    expect (m_paths cfg * n_steps cfg) P (df * mu) /\
    forall c, expect (m_paths cfg * n_steps cfg) (fun l => (P l - c) ^ 2) (df ^ 2 * q / INR (m_paths cfg) + (df * mu - c) ^ 2).
Proof.
  intros p a s cfg rate sch f LP LF ES HT HN HM HB HC df.
  set (g := fun j y z => y + a y (time_at cfg j) * dt cfg + s y (time_at cfg j) * (sqrt (dt cfg) * z)).
  assert (STEP : forall j y z, step_of (cfg_scheme cfg) p (dt cfg) (Some y) (time_at cfg j) z (Some 0) = Ret (Some (g j y z))).
  { intros j y z. rewrite ES. cbn [step_of]. destruct (LP (time_at cfg j)) as (_ & _ & A). destruct (A y) as [A1 A2]. rewrite (euler_step_real _ _ _ _ _ _ _ _ A1 A2), Rplus_0_r. reflexivity. }
  assert (DT : 0 <= dt cfg) by (unfold dt; left; apply Rdiv_lt_0_compat; [lra|apply lt_0_INR; exact HN]).
  assert (TS : forall t, tame_step (g t)) by (intro t; destruct (LP (time_at cfg t)) as (A & S & _); apply (euler_tame _ _ _ A S DT)).
  destruct (tame_expect g f TS (lipschitz_tame f LF) (n_steps cfg) 0) as (W & _ & W2). specialize (W2 (x_0 cfg)). set (mu := W (x_0 cfg)) in *.
  destruct (tame_expect g _ TS (lipschitz_square f mu LF) (n_steps cfg) 0) as (U & _ & U2). specialize (U2 (x_0 cfg)). set (q := U (x_0 cfg)) in *. cbv beta in U2.
  pose proof (end_value_run p cfg g STEP) as EV.
  destruct (mc_unbiased p cfg (fun xs => Ret (f (path_independent xs))) rate sch (fun l => f (run g 0 (x_0 cfg) l)) mu q HT HM HB HC) as (P & P1 & P2 & P3); [|exact W2|exact U2|].
  - intros l Hl. destruct (path_orbit p cfg g STEP l Hl) as (xs & X1 & X2). exists xs. split; [exact X1|]. rewrite X2. reflexivity.
  - exists mu, q, P. split; [exists (run g 0 (x_0 cfg)); split; [exact EV|exact W2]|]. split; [exists (run g 0 (x_0 cfg)); split; [exact EV|exact U2]|]. split; [exact P1|]. split; [exact P2|exact P3].
Qed.
Print Assumptions mc_lipschitz.

Lemma vanilla_1lip tf k x y : Rabs (vanilla_payoff tf k x - vanilla_payoff tf k y) <= Rabs (x - y).
Proof. unfold vanilla_payoff, Rmax, Rabs. destruct tf; repeat match goal with |- context [Rle_dec ?a ?b] => destruct (Rle_dec a b) end; repeat match goal with |- context [Rcase_abs ?a] => destruct (Rcase_abs a) end; lra. Qed.
Lemma vanilla_lipschitz tf k : lipschitz (vanilla_payoff tf k).
Proof. exists 1. split; [lra|]. intros x y. rewrite Rmult_1_l. apply vanilla_1lip. Qed.
Lemma affine_lipschitz u w : lipschitz (fun x => u + w * x).
Proof. exists (Rabs w). split; [apply Rabs_pos|]. intros x y. replace (u + w * x - (u + w * y)) with (w * (x - y)) by ring. rewrite Rabs_mult. apply Rle_refl. Qed.
Lemma affine_is_lipschitz p a b c d : affine p a b c d -> lipschitz_process p (fun x t => a t + b t * x) (fun x t => c t + d t * x).
Proof. intros A t. split; [apply affine_lipschitz|]. split; [apply affine_lipschitz|]. intro x. apply A. Qed.

(** ** A vanilla option under geometric Brownian motion *)
(** The payoff at the exact solution has the undiscounted closed-form price as its mean. *)
Lemma exact_vanilla x0 t0 tn b v k tf n : 0 < x0 -> t0 < tn -> 0 < v -> 0 < k -> (0 < n)%nat ->
  expect n (fun l => vanilla_payoff tf k (gbm_exact x0 t0 tn b v n l)) ((match tf with Call => call_price | Put => put_price end) x0 k (tn - t0) 0 b v).
Proof.
  intros X HT V K Hn. set (T := tn - t0). assert (IN : 0 < INR n) by (apply lt_0_INR; exact Hn). set (h := T / INR n). assert (H : 0 < h) by (unfold h, T; apply Rdiv_lt_0_compat; lra).
  set (pr := match tf with Call => call_price | Put => put_price end).
  set (g := fun (_ : nat) y z => y + ((b - v ^ 2 / 2) * h + v * sqrt h * z)).
  set (U := fun (j : nat) (_ : nat) y => match j with O => vanilla_payoff tf k (exp y) | S _ => pr (exp y) k (h * INR j) 0 b v end).
  assert (G : forall t y z, exp (g t y z) = lognormal_at (exp y) b v h z) by (intros t y z; unfold g, lognormal_at; apply exp_plus).
  assert (E0 : forall w, exp (- 0 * w) = 1) by (intro w; replace (- 0 * w) with 0 by ring; apply exp_0).
  assert (STEP : forall j t y, std_E (fun z => U j (S t) (g t y z)) (U (S j) t y)).
  { intros j t y. destruct j as [|j]; unfold U.
    - destruct (bsm_risk_neutral (exp y) k h 0 b v tf) as [R _]; [unfold adm; pose proof (exp_pos y); auto|]. rewrite Rmult_1_r. refine (std_ext _ _ _ _ R). intro z. cbv beta. rewrite E0, G, Rmult_1_l. reflexivity.
    - assert (HJ : 0 < h * INR (S j)) by (apply Rmult_lt_0_compat; [exact H|apply lt_0_INR; lia]).
      pose proof (bsm_tower (exp y) k (h * INR (S j)) h 0 b v tf) as R. cbv zeta in R. fold pr in R. replace (h * INR (S (S j))) with (h * INR (S j) + h) by (rewrite (S_INR (S j)); ring).
      refine (std_ext _ _ _ _ (R _ H)); [|unfold adm; pose proof (exp_pos y); auto]. intro z. cbv beta. rewrite E0, G, Rmult_1_l. reflexivity. }
  assert (RS : forall l t y, run g t y l = y + ((b - v ^ 2 / 2) * (h * INR (length l)) + v * (sqrt h * rsum l))).
  { induction l as [|z l IH]; intros t y; [simpl; ring|]. cbn [run]. rewrite IH. unfold g. cbn [length]. rewrite S_INR. simpl rsum. ring. }
  pose proof (expect_run g U STEP n 0 (ln x0)) as Z. assert (EN : U n 0%nat (ln x0) = pr x0 k T 0 b v). { unfold U. destruct n; [lia|]. rewrite exp_ln by exact X. f_equal. unfold h. field. lra. }
  rewrite EN in Z. refine (expect_ext _ _ _ _ _ Z). intros l Hl. unfold U. rewrite RS, exp_plus, exp_ln by exact X. rewrite Hl. unfold gbm_exact. fold T h. replace (h * INR n) with T by (unfold h; field; lra). reflexivity.
Qed.

(** Error of the Monte-Carlo price of a vanilla option against the closed form: bias at most the strong error, mean
    square at most the variance of one path over the number of paths plus the squared strong error. *)
Theorem mc_vanilla_error : forall x0 t0 tn b v k r tf n m par sd schedule,
  0 < x0 -> t0 < tn -> 0 < v -> 0 < k -> (0 < n)%nat -> (0 < m)%nat -> (Z.of_nat m <= 2 ^ 64)%Z ->
  let cfg := Config x0 t0 tn n EulerMaruyama m par sd in complete cfg schedule ->
  let T := tn - t0 in let price := (match tf with Call => call_price | Put => put_price end) x0 k T r b v in
  let var := x0 ^ 2 * ((1 + b * T / INR n) ^ 2 + v ^ 2 * T / INR n) ^ n - (x0 * (1 + b * T / INR n) ^ n) ^ 2 in
  let err := x0 ^ 2 * (((1 + b * T / INR n) ^ 2 + v ^ 2 * T / INR n) ^ n - 2 * (exp (b * T / INR n) * (1 + (b + v ^ 2) * T / INR n)) ^ n + exp ((2 * b + v ^ 2) * T)) in
  exists P e q, (forall l, length l = (m * n)%nat -> mc_returns (gbm (fun _ => b) (fun _ => v)) cfg (fun xs => Ret (vanilla_payoff tf k (path_independent xs))) r schedule l (P l)) /\
    expect (m * n) P e /\ Rabs (e - price) <= exp (- (r * T)) * sqrt err /\
    expect (m * n) (fun l => (P l - price) ^ 2) q /\ q <= exp (- (r * T)) ^ 2 * (var / INR m + err).
Proof.
  intros x0 t0 tn b v k r tf n m par sd sch X HT V K Hn Hm HB cfg HC T price var err. assert (V0 : 0 <= v) by lra. assert (IM : 0 < INR m) by (apply lt_0_INR; exact Hm).
  assert (LP : lipschitz_process (gbm (fun _ => b) (fun _ => v)) (fun x _ => 0 + b * x) (fun x _ => 0 + v * x)) by (apply (affine_is_lipschitz _ _ _ _ _ (gbm_affine (fun _ => b) (fun _ => v) (fun _ => V0)))).
  destruct (mc_lipschitz _ _ _ cfg r sch _ LP (vanilla_lipschitz tf k) eq_refl HT Hn Hm HB HC) as (mu & q & P & (Y & Y1 & Y2) & (Y' & Y1' & Y2') & P1 & P2 & P3). cbn [n_steps m_paths t_0 t_n cfg] in *.
  assert (YY : forall l, length l = n -> Y' l = Y l) by (intros l Hl; pose proof (Y1 l Hl) as A1; pose proof (Y1' l Hl) as A2; rewrite A1 in A2; congruence).
  fold T in P2, P3. set (df := exp (- (r * T))) in *. assert (DF : 0 < df) by apply exp_pos.
  set (f := vanilla_payoff tf k) in *.
  (* the closed form *)
  pose proof (exact_vanilla x0 t0 tn b v k tf n X HT V K Hn) as EX. fold T f in EX. set (u := (match tf with Call => call_price | Put => put_price end) x0 k T 0 b v) in *.
  assert (PU : price = df * u).
  { unfold price, u, df. replace (exp (- (r * T))) with (exp (- r * T)) by (f_equal; ring). assert (E1 : exp ((b - r) * T) = exp (- r * T) * exp ((b - 0) * T)) by (rewrite <- exp_plus; f_equal; ring). assert (E2 : exp (- 0 * T) = 1) by (replace (- 0 * T) with 0 by ring; apply exp_0).
    destruct tf; unfold call_price, put_price; rewrite E1, E2; ring. }
  (* moments and strong error *)
  destruct (euler_gbm_moments x0 t0 tn m par sd HT b v V0) as [MO _]. cbv zeta in MO. destruct (MO n Hn) as [(Z1 & Z1a & Z1b) (Z2 & Z2a & Z2b)]. fold cfg T in Z1a, Z1b, Z2a, Z2b. cbn [n_steps cfg] in *.
  destruct (euler_gbm_strong_error x0 t0 tn m par sd HT b v V0) as [SE _]. cbv zeta in SE. destruct (SE n Hn) as (Z3 & Z3a & Z3b). fold cfg T in Z3a, Z3b. fold err in Z3b. cbn [n_steps cfg] in *.
  assert (A1 : forall l, length l = n -> Z1 l = Y l) by (intros l Hl; pose proof (Y1 l Hl) as A1; pose proof (Z1a l Hl) as A2; rewrite A1 in A2; congruence).
  assert (A2 : forall l, length l = n -> Z2 l = Y l) by (intros l Hl; pose proof (Y1 l Hl) as B1; pose proof (Z2a l Hl) as B2; rewrite B1 in B2; congruence).
  assert (A3 : forall l, length l = n -> Z3 l = Y l) by (intros l Hl; pose proof (Y1 l Hl) as B1; pose proof (Z3a l Hl) as B2; rewrite B1 in B2; congruence).
  set (M := x0 * (1 + b * T / INR n) ^ n) in *. set (Q := x0 ^ 2 * ((1 + b * T / INR n) ^ 2 + v ^ 2 * T / INR n) ^ n) in *.
  assert (EM : expect n Y M) by (refine (expect_ext _ _ _ _ _ Z1b); intros l Hl; cbv beta; apply A1, Hl).
  assert (EQ : expect n (fun l => Y l ^ 2) Q) by (refine (expect_ext _ _ _ _ _ Z2b); intros l Hl; cbv beta; rewrite A2 by exact Hl; reflexivity).
  assert (EE : expect n (fun l => (Y l - gbm_exact x0 t0 tn b v n l) ^ 2) err) by (refine (expect_ext _ _ _ _ _ Z3b); intros l Hl; cbv beta; rewrite A3 by exact Hl; reflexivity).
  assert (Eq' : expect n (fun l => (f (Y l) - mu) ^ 2) q) by (refine (expect_ext _ _ _ _ _ Y2'); intros l Hl; cbv beta; rewrite YY by exact Hl; reflexivity).
  (* variance of the payoff *)
  assert (QV : q <= var).
  { assert (EV : expect n (fun l => (Y l - M) ^ 2) var).
    { pose proof (expect_lin _ _ _ 1 (- 2 * M) _ _ EQ EM) as L. pose proof (expect_lin _ _ _ 1 (M ^ 2) _ _ L (expect_const n 1)) as L2. match type of L2 with expect _ _ ?e => replace e with var in L2 by (unfold var; ring) end. refine (expect_ext _ _ _ _ _ L2). intros l _. ring. }
    pose proof (expect_lin _ _ _ 1 (2 * (mu - f M)) _ _ Eq' Y2) as L. pose proof (expect_lin _ _ _ 1 ((mu - f M) ^ 2 - 2 * (mu - f M) * mu) _ _ L (expect_const n 1)) as L2.
    match type of L2 with expect _ _ ?e => replace e with (q + (mu - f M) ^ 2) in L2 by ring end.
    assert (q + (mu - f M) ^ 2 <= var); [|pose proof (pow2_ge_0 (mu - f M)); lra]. refine (expect_le _ _ _ _ _ _ L2 EV). intros l _. cbv beta.
    match goal with |- ?a <= _ => replace a with ((f (Y l) - f M) ^ 2) by ring end. rewrite <- (pow2_abs (f (Y l) - f M)), <- (pow2_abs (Y l - M)). apply pow_incr. split; [apply Rabs_pos|apply vanilla_1lip]. }
  (* bias *)
  assert (E0 : 0 <= err) by (refine (expect_le _ _ _ _ _ _ (expect_const n 0) EE); intros l _; apply pow2_ge_0).
  assert (BI : Rabs (mu - u) <= sqrt err).
  { assert (BL : forall lam, 0 < lam -> Rabs (mu - u) <= (lam + err / lam) / 2).
    { intros lam HL. pose proof (expect_lin _ _ _ 1 (-1) _ _ Y2 EX) as D. pose proof (expect_lin _ _ _ (lam / 2) (/ (2 * lam)) _ _ (expect_const n 1) EE) as R1.
      match type of R1 with expect _ _ ?e => replace e with ((lam + err / lam) / 2) in R1 by (field; lra) end.
      assert (PW : forall l, Rabs (f (Y l) - f (gbm_exact x0 t0 tn b v n l)) <= lam / 2 * 1 + / (2 * lam) * (Y l - gbm_exact x0 t0 tn b v n l) ^ 2).
      { intro l. apply Rle_trans with (1 := vanilla_1lip tf k _ _). set (d := Y l - gbm_exact x0 t0 tn b v n l). rewrite <- (pow2_abs d). set (a := Rabs d). pose proof (pow2_ge_0 (lam - a)) as S.
        apply (Rmult_le_reg_l (2 * lam)); [lra|]. replace (2 * lam * (lam / 2 * 1 + / (2 * lam) * a ^ 2)) with (lam ^ 2 + a ^ 2) by (field; lra). nra. }
      apply Rabs_le. split.
      - pose proof (expect_lin _ _ _ (-1) 0 _ _ R1 R1) as R2. match type of R2 with expect _ _ ?e => replace e with (- ((lam + err / lam) / 2)) in R2 by ring end. replace (mu - u) with (1 * mu + -1 * u) by ring.
        refine (expect_le _ _ _ _ _ _ R2 D). intros l _. cbv beta. specialize (PW l). apply Rabs_le_between in PW. lra.
      - replace (mu - u) with (1 * mu + -1 * u) by ring. refine (expect_le _ _ _ _ _ _ D R1). intros l _. cbv beta. specialize (PW l). apply Rabs_le_between in PW. lra. }
    destruct E0 as [E0|E0].
    - pose proof (sqrt_lt_R0 _ E0) as Q0. specialize (BL (sqrt err) Q0). replace (err / sqrt err) with (sqrt err) in BL; [lra|]. rewrite <- (sqrt_sqrt err) at 2 by lra. field. lra.
    - rewrite <- E0, sqrt_0. apply le_epsilon. intros eps He. specialize (BL eps He). rewrite <- E0 in BL. unfold Rdiv at 2 in BL. rewrite Rmult_0_l in BL. lra. }
  exists P, (df * mu), (df ^ 2 * q / INR m + (df * mu - price) ^ 2). split; [exact P1|]. split; [exact P2|]. split; [|split; [apply P3|]].
  - rewrite PU. replace (df * mu - df * u) with (df * (mu - u)) by ring. rewrite Rabs_mult, (Rabs_right df) by lra. apply Rmult_le_compat_l; lra.
  - rewrite PU. replace (df * mu - df * u) with (df * (mu - u)) by ring. replace (df ^ 2 * q / INR m + (df * (mu - u)) ^ 2) with (df ^ 2 * (q / INR m + (mu - u) ^ 2)) by (field; lra). apply Rmult_le_compat_l; [apply pow2_ge_0|]. apply Rplus_le_compat.
    + unfold Rdiv. apply Rmult_le_compat_r; [left; apply Rinv_0_lt_compat; exact IM|exact QV].
    + rewrite <- (pow2_abs (mu - u)). rewrite <- (sqrt_sqrt err) by exact E0. replace (sqrt err * sqrt err) with (sqrt err ^ 2) by ring. apply pow_incr. split; [apply Rabs_pos|exact BI].
Qed.
Print Assumptions mc_vanilla_error.

(** Two constants bound the mean-square error for all numbers of steps and paths: it vanishes as 1/m + 1/n. *)
Lemma lim_bounded (u : nat -> R) (w : R) : is_lim_seq u w -> exists B, 0 < B /\ forall n, Rabs (u n) <= B.
Proof. intro H. apply is_lim_seq_Reals in H. destruct (maj_by_pos u (exist _ w H)) as (B & B1 & B2). exists B. split; assumption. Qed.
Theorem mc_vanilla_converges : forall x0 t0 tn b v k r tf, 0 < x0 -> t0 < tn -> 0 < v -> 0 < k ->
  exists A B, forall n m par sd schedule, (0 < n)%nat -> (0 < m)%nat -> (Z.of_nat m <= 2 ^ 64)%Z ->
  let cfg := Config x0 t0 tn n EulerMaruyama m par sd in complete cfg schedule ->
  exists P q, (forall l, length l = (m * n)%nat -> mc_returns (gbm (fun _ => b) (fun _ => v)) cfg (fun xs => Ret (vanilla_payoff tf k (path_independent xs))) r schedule l (P l)) /\
    expect (m * n) (fun l => (P l - (match tf with Call => call_price | Put => put_price end) x0 k (tn - t0) r b v) ^ 2) q /\ q <= A / INR m + B / INR n.
Proof.
  intros x0 t0 tn b v k r tf X HT V K. assert (V0 : 0 <= v) by lra.
  destruct (euler_gbm_moments x0 t0 tn 1 false None HT b v V0) as (_ & LM & LQ & _). destruct (euler_gbm_strong_error x0 t0 tn 1 false None HT b v V0) as (_ & _ & LE). cbv zeta in LM, LQ, LE.
  destruct (lim_bounded _ _ LM) as (BM & BM1 & BM2). destruct (lim_bounded _ _ LQ) as (BQ & BQ1 & BQ2). destruct (lim_bounded _ _ LE) as (BE & BE1 & BE2). cbv beta in *.
  set (df := exp (- (r * (tn - t0)))). exists (df ^ 2 * BQ), (df ^ 2 * BE). intros n m par sd sch Hn Hm HB cfg HC.
  destruct (mc_vanilla_error x0 t0 tn b v k r tf n m par sd sch X HT V K Hn Hm HB HC) as (P & e & q & P1 & _ & _ & P3 & P4). fold df in P4. exists P, q. split; [exact P1|]. split; [exact P3|].
  assert (IM : 0 < INR m) by (apply lt_0_INR; exact Hm). assert (IN : 0 < INR n) by (apply lt_0_INR; exact Hn). apply Rle_trans with (1 := P4).
  replace (df ^ 2 * BQ / INR m + df ^ 2 * BE / INR n) with (df ^ 2 * (BQ / INR m + BE / INR n)) by (field; lra). apply Rmult_le_compat_l; [apply pow2_ge_0|]. apply Rplus_le_compat.
  - unfold Rdiv. apply Rmult_le_compat_r; [left; apply Rinv_0_lt_compat; exact IM|]. specialize (BQ2 n). apply Rabs_le_between in BQ2. match goal with |- _ - ?s <= _ => assert (0 <= s) by apply pow2_ge_0 end. lra.
  - specialize (BE2 n). apply Rabs_le_between in BE2. apply (Rmult_le_reg_l (INR n)); [exact IN|]. replace (INR n * (BE / INR n)) with BE by (field; lra). lra.
Qed.
Print Assumptions mc_vanilla_converges.
Example mc_case : exists P q, (forall l, length l = (7 * 3)%nat -> mc_returns (gbm (fun _ => 1 / 10) (fun _ => 1 / 5)) (Config 100 0 2 3 EulerMaruyama 7 false (Some 42%Z)) (fun xs => Ret (vanilla_payoff Put 95 (path_independent xs))) (1 / 10)
    (flat_map (fun i => repeat i 3) (seq 0 7)) l (P l)) /\ expect (7 * 3) (fun l => (P l - put_price 100 95 (2 - 0) (1 / 10) (1 / 10) (1 / 5)) ^ 2) q.
Proof.
  destruct (mc_vanilla_converges 100 0 2 (1 / 10) (1 / 5) 95 (1 / 10) Put) as (A & B & H); try lra.
  destruct (H 3%nat 7%nat false (Some 42%Z) (flat_map (fun i => repeat i 3) (seq 0 7))) as (P & q & H1 & H2 & _); [lia|lia|cbn; discriminate| |exists P, q; split; [exact H1|exact H2]].
  intros i Hi. cbn [m_paths n_steps] in *. do 7 (destruct i as [|i]; [cbn; lia|]). lia.
Qed.
