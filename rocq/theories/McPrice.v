(** C90: the Monte-Carlo price as a random variable.  The noise of m paths of n steps is
    one list of m * n independent standard normals; path i reads its own block. *)
From Coq Require Import Reals List ZArith Lra Lia.
From Coquelicot Require Import Coquelicot.
From Verif Require Import Res InterpModel InterpProofs RList StatModel PayoffModel PayoffProps SpecialFns RGen DistModel DistGauss SimModel SimProps SimMoments GaussExp.
Import ListNotations.
Open Scope R_scope.

(** ** More on expectations *)
Lemma expect_const : forall n c, expect n (fun _ => c) c.
Proof. induction n as [|n IH]; intro c; simpl; [reflexivity|]. exists (fun _ => c). split; [intro z; apply IH|apply std_const]. Qed.
Lemma expect_le : forall n F G u v, (forall l, length l = n -> F l <= G l) -> expect n F u -> expect n G v -> u <= v.
Proof.
  induction n as [|n IH]; intros F G u v H A B; simpl in *; [subst; apply H; reflexivity|]. destruct A as (f & A1 & A2), B as (g & B1 & B2).
  apply (std_le f g u v); [|exact A2|exact B2]. intro z. apply (IH (fun l => F (z :: l)) (fun l => G (z :: l))); [|apply A1|apply B1]. intros l Hl. apply H. simpl. congruence.
Qed.
(** independent blocks: integrate out the last b draws first *)
Lemma expect_split : forall a b F G e, (forall l1, length l1 = a -> expect b (fun l2 => F (l1 ++ l2)) (G l1)) -> expect a G e -> expect (a + b) F e.
Proof.
  induction a as [|a IH]; intros b F G e H K; simpl in *; [subst e; apply (H []); reflexivity|]. destruct K as (g & K1 & K2). exists g. split; [|exact K2].
  intro z. apply (IH b (fun l => F (z :: l)) (fun l => G (z :: l))); [|apply K1]. intros l1 Hl. apply (H (z :: l1)). simpl. congruence.
Qed.

(** sum of f over m blocks of n draws *)
Fixpoint block_sum (n : nat) (f : list R -> R) (m : nat) (l : list R) : R :=
  match m with O => 0 | S m' => f (firstn n l) + block_sum n f m' (skipn n l) end.
Lemma block_app n f m l1 l2 : length l1 = n -> block_sum n f (S m) (l1 ++ l2) = f l1 + block_sum n f m l2.
Proof. intros <-. cbn [block_sum]. rewrite firstn_app, firstn_all, Nat.sub_diag, skipn_app, skipn_all, Nat.sub_diag. simpl. rewrite app_nil_r. reflexivity. Qed.
Lemma block_mean n f mu : expect n f mu -> forall m, expect (m * n) (block_sum n f m) (INR m * mu).
Proof.
  intros H m. induction m as [|m IH]; [simpl; ring|]. cbn [Nat.mul]. apply (expect_split n (m * n) _ (fun l => 1 * f l + (INR m * mu) * 1)).
  - intros l1 Hl. pose proof (expect_lin _ _ _ 1 1 _ _ (expect_const (m * n) (f l1)) IH) as K. replace (1 * f l1 + INR m * mu * 1) with (1 * f l1 + 1 * (INR m * mu)) by ring.
    refine (expect_ext _ _ _ _ _ K). intros l2 _. rewrite block_app by exact Hl. ring.
  - rewrite S_INR. replace ((INR m + 1) * mu) with (1 * mu + INR m * mu * 1) by ring. apply expect_lin; [exact H|apply expect_const].
Qed.
Lemma block_variance n f mu q : expect n f mu -> expect n (fun l => (f l - mu) ^ 2) q ->
  forall m, expect (m * n) (fun l => (block_sum n f m l - INR m * mu) ^ 2) (INR m * q).
Proof.
  intros H V m. induction m as [|m IH]; [simpl; ring|]. cbn [Nat.mul]. apply (expect_split n (m * n) _ (fun l => 1 * (f l - mu) ^ 2 + (INR m * q) * 1)).
  - intros l1 Hl. pose proof (expect_lin _ _ _ 1 (2 * (f l1 - mu)) _ _ IH (block_mean n f mu H m)) as K1.
    pose proof (expect_lin _ _ _ 1 ((f l1 - mu) ^ 2 - 2 * (f l1 - mu) * (INR m * mu)) _ _ K1 (expect_const (m * n) 1)) as K2.
    match type of K2 with expect _ _ ?e => replace e with (1 * (f l1 - mu) ^ 2 + INR m * q * 1) in K2 by ring end.
    refine (expect_ext _ _ _ _ _ K2). intros l2 _. rewrite block_app by exact Hl. rewrite S_INR. ring.
  - rewrite S_INR. replace ((INR m + 1) * q) with (1 * q + INR m * q * 1) by ring. apply expect_lin; [exact V|apply expect_const].
Qed.

(** ** The program on a given noise *)
(** the stream seeded with base + i is block i of the noise; [base] is the seed of the
    configuration, or the value drawn when it has none *)
Definition streams (base : Z) (n : nat) (l : list R) : env :=
  Env (fun sd t => nth (Z.to_nat ((sd - base) mod 2 ^ 64) * n + t) l 0) base (fun _ _ => 0) (fun _ _ _ => 0).
(** [process.generate] returns finite paths and [price_monte_carlo] prices them to x *)
Definition mc_returns (p : process) (cfg : config) (payoff : list R -> res R) (rate : R) (schedule : list nat) (l : list R) (x : R) : Prop :=
  exists ts qs, generate (streams (match seed cfg with Some s => s | None => 0%Z end) (n_steps cfg) l) p cfg schedule = Ret (ts, map (map Some) qs) /\
    price_mc payoff qs (t_0 cfg) (t_n cfg) rate = Ret (Some x).

Lemma loop_noise_ext e e' p cfg i i' nz nz' : forall k t x, (forall j, (t <= j < t + k)%nat -> nz j = nz' j) ->
  path_loop e p cfg None i nz t k x = path_loop e' p cfg None i' nz' t k x.
Proof.
  induction k as [|k IH]; intros t x H; cbn [path_loop]; [reflexivity|]. unfold path_step. rewrite (H t) by lia. cbn [jump_term].
  destruct (nz' t) as [z| |]; cbn [bind]; [|reflexivity|reflexivity].
  destruct (step_of (cfg_scheme cfg) p (dt cfg) x (time_at cfg t) z (Some 0)) as [x'| |]; cbn [bind]; [|reflexivity|reflexivity].
  rewrite (IH (S t) x') by (intros j Hj; apply H; lia). reflexivity.
Qed.
Lemma seed_block base i : (Z.of_nat i < 2 ^ 64)%Z -> Z.to_nat ((u64_wrapping_add base (Z.of_nat i) - base) mod 2 ^ 64) = i.
Proof.
  intro H. unfold u64_wrapping_add. rewrite Zminus_mod_idemp_l. replace (base + Z.of_nat i - base)%Z with (Z.of_nat i) by ring. rewrite Z.mod_small by lia. apply Nat2Z.id.
Qed.
Lemma nth_block n l i t : (t < n)%nat -> nth t (firstn n (skipn (i * n) l)) 0 = nth (i * n + t) l 0.
Proof.
  intro H. destruct (Nat.le_gt_cases (i * n) (length l)) as [L|L].
  - rewrite <- (firstn_skipn (i * n) l) at 2. rewrite app_nth2 by (rewrite firstn_length; lia). rewrite firstn_length, Nat.min_l by lia. replace (i * n + t - i * n)%nat with t by lia.
    set (r := skipn (i * n) l). rewrite <- (firstn_skipn n r) at 2. destruct (Nat.le_gt_cases n (length r)) as [L'|L'].
    + rewrite app_nth1 by (rewrite firstn_length; lia). reflexivity.
    + rewrite (firstn_all2 r) by lia. rewrite skipn_all2 by lia. rewrite app_nil_r. reflexivity.
  - rewrite skipn_all2 by lia. rewrite firstn_nil, (nth_overflow l) by lia. destruct t; reflexivity.
Qed.
Lemma path_block base p cfg l i : (Z.of_nat i < 2 ^ 64)%Z ->
  path (streams base (n_steps cfg) l) p cfg (Dynamic base) None i = path (draws (firstn (n_steps cfg) (skipn (i * n_steps cfg) l))) p cfg (Dynamic 0) None 0.
Proof.
  intro H. rewrite !path_dyn. apply loop_noise_ext. intros j Hj. cbn [rng streams draws]. rewrite seed_block by exact H. rewrite nth_block by lia. reflexivity.
Qed.
Lemma collect_ret {A} (l : list A) : collect (map Ret l) = Ret l.
Proof. induction l as [|a l IH]; cbn; [reflexivity|]. rewrite IH. reflexivity. Qed.
Lemma skipn_add {A} a : forall b (l : list A), skipn a (skipn b l) = skipn (b + a) l.
Proof. induction b as [|b IH]; intro l; [reflexivity|]. destruct l as [|x l]; [cbn; destruct a; reflexivity|apply IH]. Qed.
Lemma block_sum_seq n f : forall m l, block_sum n f m l = rsum (map (fun i => f (firstn n (skipn (i * n) l))) (seq 0 m)).
Proof.
  induction m as [|m IH]; intro l; [reflexivity|]. cbn [block_sum seq map]. rewrite IH. change (rsum (?a :: ?b)) with (a + rsum b). f_equal.
  rewrite <- seq_shift, map_map. f_equal. apply map_ext. intro i. rewrite skipn_add. do 2 f_equal.
Qed.

(** The price is an unbiased estimate of the discounted expected payoff of one path, and
    its variance is that of one path divided by the number of paths - in series, in
    parallel, under any schedule, with or without a seed. *)
Theorem mc_unbiased : forall p cfg payoff rate schedule (f : list R -> R) mu q,
  t_0 cfg < t_n cfg -> (0 < m_paths cfg)%nat -> (Z.of_nat (m_paths cfg) <= 2 ^ 64)%Z -> complete cfg schedule ->
  (forall l, length l = n_steps cfg -> exists xs, path (draws l) p cfg (Dynamic 0) None 0 = Ret (map Some xs) /\ payoff xs = Ret (f l)) ->
  expect (n_steps cfg) f mu -> expect (n_steps cfg) (fun l => (f l - mu) ^ 2) q ->
  exists P, (forall l, length l = (m_paths cfg * n_steps cfg)%nat -> mc_returns p cfg payoff rate schedule l (P l)) /\
    let df := exp (- (rate * (t_n cfg - t_0 cfg))) in
    expect (m_paths cfg * n_steps cfg) P (df * mu) /\ 
    (forall c, expect (m_paths cfg * n_steps cfg) (fun l => (P l - c) ^ 2) (df ^ 2 * q / INR (m_paths cfg) + (df * mu - c) ^ 2)).
Proof.
  intros p cfg payoff rate sch f mu q HT HM HB HC HP Emu Eq. set (n := n_steps cfg) in *. set (m := m_paths cfg) in *. set (df := exp (- (rate * (t_n cfg - t_0 cfg)))).
  assert (IM : 0 < INR m) by (apply lt_0_INR; exact HM).
  exists (fun l => df / INR m * block_sum n f m l). split; [|split].
  - intros l Hl. set (base := match seed cfg with Some s => s | None => 0%Z end).
    assert (XS : exists qs, map (fun i => path (streams base n l) p cfg (Dynamic base) None i) (seq 0 m) = map (fun q => Ret (map Some q)) qs /\ length qs = m /\ map payoff qs = map (fun i => Ret (f (firstn n (skipn (i * n) l)))) (seq 0 m)).
    { assert (G : forall js, (forall i, In i js -> (i < m)%nat) -> exists qs, map (fun i => path (streams base n l) p cfg (Dynamic base) None i) js = map (fun q => Ret (map Some q)) qs /\ length qs = length js /\ map payoff qs = map (fun i => Ret (f (firstn n (skipn (i * n) l)))) js).
      { induction js as [|i js IH]; intro Hj; [exists []; repeat split; reflexivity|]. destruct IH as (qs & Q1 & Q2 & Q3); [intros j Hj'; apply Hj; right; exact Hj'|]. assert (Hi : (i < m)%nat) by (apply Hj; left; reflexivity).
        destruct (HP (firstn n (skipn (i * n) l))) as (xs & X1 & X2). { rewrite firstn_length, skipn_length, Hl. assert ((S i) * n <= m * n)%nat by (apply Nat.mul_le_mono_r; lia). simpl in H. lia. }
        exists (xs :: qs). cbn [map length]. rewrite Q1, Q3, X2, Q2. split; [|split; reflexivity]. f_equal. unfold n. rewrite path_block by lia. exact X1. }
      destruct (G (seq 0 m)) as (qs & Q1 & Q2 & Q3); [intros i Hi; apply in_seq in Hi; lia|]. rewrite seq_length in Q2. exists qs. auto. }
    destruct XS as (qs & Q1 & Q2 & Q3).
    assert (SP : serial_paths (streams base n l) p cfg (Dynamic base) None = Ret (map (map Some) qs)).
    { unfold serial_paths. fold m. transitivity (collect (map (fun i => path (streams base n l) p cfg (Dynamic base) None i) (seq 0 m))); [reflexivity|]. rewrite Q1. rewrite <- (map_map (map Some) Ret). apply collect_ret. }
    exists (times cfg), qs. split.
    + unfold generate, simulate. unfold assertb. destruct (Rltb_spec (t_0 cfg) (t_n cfg)) as [_|]; [|lra]. cbn [bind]. fold base n.
      replace (match seed cfg with Some s => s | None => entropy (streams base n l) end) with base by (unfold base; destruct (seed cfg); reflexivity).
      destruct (parallel cfg); [rewrite (parallel_equals_serial _ _ _ _ _ _ HC)|]; rewrite SP; reflexivity.
    + destruct (mc_average payoff (fun q => match payoff q with Ret x => x | _ => 0 end) qs (t_0 cfg) (t_n cfg) rate) as [E _].
      * intro Z. rewrite Z in Q2. simpl in Q2. lia.
      * intros x Hx. apply (in_map payoff) in Hx. rewrite Q3 in Hx. apply in_map_iff in Hx. destruct Hx as (i & <- & _). reflexivity.
      * rewrite E. do 2 f_equal. rewrite Q2. fold df. rewrite block_sum_seq.
        replace (map (fun q0 => match payoff q0 with Ret x => x | _ => 0 end) qs) with (map (fun i => f (firstn n (skipn (i * n) l))) (seq 0 m)); [field; lra|].
        rewrite <- (map_map payoff (fun r => match r with Ret x => x | _ => 0 end)), Q3, map_map. reflexivity.
  - pose proof (expect_lin _ _ _ (df / INR m) 0 _ _ (block_mean n f mu Emu m) (expect_const (m * n) 0)) as K.
    match type of K with expect _ _ ?e => replace e with (df * mu) in K by (field; lra) end. refine (expect_ext _ _ _ _ _ K). intros l _. ring.
  - intro c. pose proof (expect_lin _ _ _ ((df / INR m) ^ 2) (2 * (df / INR m) * (df * mu - c)) _ _ (block_variance n f mu q Emu Eq m) (block_mean n f mu Emu m)) as K.
    pose proof (expect_lin _ _ _ 1 ((df * mu - c) ^ 2 - 2 * (df / INR m) * (df * mu - c) * (INR m * mu)) _ _ K (expect_const (m * n) 1)) as K2.
    match type of K2 with expect _ _ ?e => replace e with (df ^ 2 * q / INR m + (df * mu - c) ^ 2) in K2 by (field; lra) end.
    refine (expect_ext _ _ _ _ _ K2). intros l _. cbv beta. field. lra.
Qed.
Print Assumptions mc_unbiased.
