(** C45, C46: simulation of stochastic processes. *)
From Coq Require Import Reals List Bool ZArith Lra Lia Permutation FunctionalExtensionality.
From Verif Require Import Res InterpModel InterpProofs RList StatModel SimModel.
Import ListNotations.
Open Scope R_scope.

(** ** Times *)

Theorem times_spec : forall cfg, (0 < n_steps cfg)%nat -> t_0 cfg < t_n cfg ->
  exists ts, times cfg = map Some ts /\ length ts = Datatypes.S (n_steps cfg) /\
    nth 0 ts 0 = t_0 cfg /\ nth (n_steps cfg) ts 0 = t_n cfg /\
    (forall i, (i < n_steps cfg)%nat -> nth (Datatypes.S i) ts 0 - nth i ts 0 = (t_n cfg - t_0 cfg) / INR (n_steps cfg) /\
       nth i ts 0 < nth (Datatypes.S i) ts 0).
Proof.
  intros cfg Hn Ht. exists (map (time_at cfg) (seq 0 (Datatypes.S (n_steps cfg)))).
  assert (Hp : 0 < INR (n_steps cfg)) by (apply lt_0_INR; exact Hn).
  assert (N : forall i, (i <= n_steps cfg)%nat -> nth i (map (time_at cfg) (seq 0 (Datatypes.S (n_steps cfg)))) 0 = time_at cfg i).
  { intros i Hi. rewrite (nth_indep _ 0 (time_at cfg 0%nat)) by (rewrite map_length, seq_length; lia). rewrite map_nth, seq_nth by lia. reflexivity. }
  split; [|split; [|split; [|split]]].
  - unfold times. destruct (n_steps cfg) eqn:E; [lia|]. rewrite map_map. reflexivity.
  - rewrite map_length, seq_length. reflexivity.
  - rewrite N by lia. unfold time_at. simpl. lra.
  - rewrite N by lia. unfold time_at, dt. field. lra.
  - intros i Hi. rewrite !N by lia. unfold time_at, dt. rewrite S_INR. split; [field; lra|].
    assert (0 < (t_n cfg - t_0 cfg) / INR (n_steps cfg)) by (apply Rdiv_lt_0_compat; lra). lra.
Qed.
(** Finding: zero steps are accepted, and then the only time point is NaN. *)
Theorem times_zero_steps_refuted : forall cfg, n_steps cfg = 0%nat -> times cfg = [None].
Proof. intros cfg H. unfold times. rewrite H. reflexivity. Qed.

(** ** Loop facts *)
Section loops.
  Context (e : env) (p : process) (cfg : config) (jumps : option (nat -> R)).
  Notation loop := (path_loop e p cfg jumps).
  Notation step := (path_step e p cfg jumps).

  Lemma loop_shape i nz k : forall t x r, loop i nz t k x = Ret r ->
    length r = Datatypes.S k /\ nth 0 r None = x /\
    forall j, (j < k)%nat -> step i nz (t + j) (nth j r None) = Ret (nth (Datatypes.S j) r None).
  Proof.
    induction k as [|k IH]; intros t x r H; cbn [path_loop] in H.
    - injection H as <-. repeat split. lia.
    - apply bind_Ret_inv in H. destruct H as (x' & Hx & H). apply bind_Ret_inv in H. destruct H as (r' & Hr & H).
      injection H as <-. destruct (IH _ _ _ Hr) as (L & H0 & Hs). split; [simpl; lia|]. split; [reflexivity|].
      intros [|j] Hj.
      + rewrite Nat.add_0_r. simpl. rewrite H0. exact Hx.
      + replace (t + Datatypes.S j)%nat with (Datatypes.S t + j)%nat by lia. simpl nth at 1. rewrite Hs by lia. reflexivity.
  Qed.

  Lemma loop_ext i i' nz nz' k : forall t x,
    (forall j y, (t <= j < t + k)%nat -> step i nz j y = step i' nz' j y) -> loop i nz t k x = loop i' nz' t k x.
  Proof.
    induction k as [|k IH]; intros t x H; cbn [path_loop]; [reflexivity|].
    rewrite H by lia. destruct (step i' nz' t x); cbn; [|reflexivity..]. rewrite IH; [reflexivity|]. intros; apply H; lia.
  Qed.

  Fixpoint iter {A} (k : nat) (f : A -> A) (a : A) : A := match k with O => a | Datatypes.S k' => iter k' f (f a) end.
  Lemma iter_fix {A} (f : A -> A) a k : f a = a -> iter k f a = a.
  Proof. intros H. induction k; simpl; [reflexivity|]. rewrite H. assumption. Qed.

  Notation adv := (advance1 e p cfg jumps).

  Lemma adv_panic i nz : adv i nz Panic = Panic. Proof. reflexivity. Qed.

  Lemma iter_adv i nz k : forall d l,
    (length l + k = Datatypes.S (n_steps cfg))%nat -> (1 <= length l)%nat ->
    iter (k + d) (adv i nz) (Ret l) =
      let! r := loop i nz (length l - 1) k (last l None) in Ret (removelast l ++ r).
  Proof.
    induction k as [|k IH]; intros d l Hl H1.
    - simpl. rewrite iter_fix.
      + rewrite <- app_removelast_last by (destruct l; [simpl in H1; lia|discriminate]). reflexivity.
      + unfold advance1. simpl. destruct (Nat.leb_spec (length l) (n_steps cfg)); [lia|reflexivity].
    - cbn [iter Nat.add path_loop]. unfold advance1 at 2. cbn [bind].
      destruct (Nat.leb_spec (length l) (n_steps cfg)); [|lia].
      destruct (step i nz (length l - 1) (last l None)) as [x'| |] eqn:E; cbn [bind].
      + rewrite IH by (rewrite app_length; simpl; lia). rewrite app_length, last_last, removelast_last. cbn [length].
        replace (length l + 1 - 1)%nat with (Datatypes.S (length l - 1)) by lia.
        destruct (loop i nz (Datatypes.S (length l - 1)) k x') as [r| |]; cbn [bind]; [|reflexivity..].
        f_equal. transitivity ((removelast l ++ [last l None]) ++ r); [|rewrite <- app_assoc; reflexivity].
        f_equal. apply app_removelast_last. destruct l; [simpl in H1; lia|discriminate].
      + apply iter_fix. reflexivity.
      + apply iter_fix. reflexivity.
  Qed.
End loops.

(** ** Parallel and serial execution agree *)

Fixpoint count (i : nat) (l : list nat) : nat :=
  match l with [] => 0 | j :: l' => (if Nat.eqb i j then 1 else 0) + count i l' end.
(** every path is run to its end *)
Definition complete (cfg : config) (schedule : list nat) : Prop :=
  forall i, (i < m_paths cfg)%nat -> (n_steps cfg <= count i schedule)%nat.

Lemma fold_slots (g : nat -> res (nat -> res R) -> res (list fl) -> res (list fl)) sch : forall st : list (nat * res (nat -> res R) * res (list fl)),
  fold_left (fun st j => map (fun '(i, nz, pth) => (i, nz, if Nat.eqb i j then g i nz pth else pth)) st) sch st =
  map (fun '(i, nz, pth) => (i, nz, iter (count i sch) (g i nz) pth)) st.
Proof.
  induction sch as [|j sch IH]; intros st; simpl.
  - rewrite <- (map_id st) at 1. apply map_ext. intros [[i nz] pth]. reflexivity.
  - rewrite IH, map_map. apply map_ext. intros [[i nz] pth]. destruct (Nat.eqb i j); reflexivity.
Qed.

Theorem parallel_equals_serial : forall e p cfg src jumps schedule, complete cfg schedule ->
  parallel_paths e p cfg src jumps schedule = serial_paths e p cfg src jumps.
Proof.
  intros e p cfg src jumps sch Hc. unfold parallel_paths, serial_paths.
  rewrite (fold_slots (fun i nz pth => let! f := nz in advance1 e p cfg jumps i f pth)). rewrite !map_map.
  f_equal. apply map_ext_in. intros i Hi. apply in_seq in Hi. unfold path. cbn beta iota.
  destruct (path_noise e src i) as [f| |] eqn:E; cbn [bind]; [|reflexivity..].
  assert (Hk : (n_steps cfg <= count i sch)%nat) by (apply Hc; lia).
  replace (count i sch) with (n_steps cfg + (count i sch - n_steps cfg))%nat by lia.
  rewrite iter_adv by (simpl; lia). simpl (length _). simpl (last _ _). simpl (removelast _). simpl (1 - 1)%nat.
  destruct (path_loop e p cfg jumps i f 0 (n_steps cfg) (Some (x_0 cfg))); reflexivity.
Qed.

Lemma collect_inv {A} (l : list (res A)) : forall r, collect l = Ret r -> l = map Ret r.
Proof.
  induction l as [|a l IH]; intros r H; cbn in H.
  - injection H as <-. reflexivity.
  - apply bind_Ret_inv in H. destruct H as (x & -> & H). apply bind_Ret_inv in H. destruct H as (r' & Hr & H).
    injection H as <-. rewrite (IH _ Hr). reflexivity.
Qed.

Definition noise_of (e : env) (src : noise_source) (i : nat) (t : nat) (z : R) : Prop :=
  exists f, path_noise e src i = Ret f /\ f t = Ret z.

(** ** C45: shape and recurrence of every simulation that returns *)
Theorem simulate_shape : forall e p cfg jc fc schedule ts ps, complete cfg schedule ->
  simulate e p cfg jc fc schedule = Ret (ts, ps) ->
  t_0 cfg < t_n cfg /\ ts = times cfg /\ length ps = m_paths cfg /\
  forall i, (i < m_paths cfg)%nat ->
    length (nth i ps []) = Datatypes.S (n_steps cfg) /\
    nth 0 (nth i ps []) None = Some (x_0 cfg) /\
    forall t, (t < n_steps cfg)%nat -> exists z,
      let src := match fc with Some f => Fractional f | None => Dynamic (match seed cfg with Some s => s | None => entropy e end) end in
      noise_of e src i t z /\
      step_of (cfg_scheme cfg) p (dt cfg) (nth t (nth i ps []) None) (time_at cfg t) z
        (jump_term p (jump_draw e i t) (nth t (nth i ps []) None) (time_at cfg t)
           (match jc with Some lambda => Some (poisson_draw e (lambda * dt cfg) (n_steps cfg) t) | None => None end))
      = Ret (nth (Datatypes.S t) (nth i ps []) None).
Proof.
  intros e p cfg jc fc sch ts ps Hc H. unfold simulate in H.
  unfold assertb at 1 in H. destruct (Rltb_spec (t_0 cfg) (t_n cfg)) as [Ht|]; [|discriminate].
  apply bind_Ret_inv in H. destruct H as (jumps & Hj & H).
  set (src := match fc with Some f => Fractional f | None => Dynamic (match seed cfg with Some s => s | None => entropy e end) end) in *.
  apply bind_Ret_inv in H. destruct H as (ps' & Hp & H). assert (ts = times cfg) by congruence. assert (ps' = ps) by congruence. subst ts ps'.
  assert (Hs : serial_paths e p cfg src jumps = Ret ps).
  { destruct (parallel cfg); [rewrite <- (parallel_equals_serial e p cfg src jumps sch Hc)|]; exact Hp. }
  assert (Ej : forall t, match jumps with Some f => Some (f t) | None => None end =
                        match jc with Some lambda => Some (poisson_draw e (lambda * dt cfg) (n_steps cfg) t) | None => None end).
  { intros t. destruct jc as [lambda|].
    - unfold assertb in Hj. destruct (negb (n_steps cfg =? 0)%nat); [|discriminate]. destruct (Rltb 0 (lambda * dt cfg)); [|discriminate].
      assert (E : jumps = Some (poisson_draw e (lambda * dt cfg) (n_steps cfg))) by congruence. subst. reflexivity.
    - assert (E : jumps = None) by congruence. subst. reflexivity. }
  split; [exact Ht|]. split; [reflexivity|].
  unfold serial_paths in Hs. apply collect_inv in Hs.
  assert (L : length ps = m_paths cfg) by (apply (f_equal (@length _)) in Hs; rewrite !map_length, seq_length in Hs; lia).
  split; [exact L|]. intros i Hi.
  assert (Pi : path e p cfg src jumps i = Ret (nth i ps [])).
  { apply (f_equal (fun l => nth i l (Ret []))) in Hs.
    rewrite (map_nth Ret) in Hs. rewrite (nth_indep _ _ (path e p cfg src jumps 0%nat)) in Hs by (rewrite map_length, seq_length; exact Hi).
    rewrite map_nth, seq_nth in Hs by exact Hi. exact Hs. }
  unfold path in Pi. apply bind_Ret_inv in Pi. destruct Pi as (f & Hf & Pi).
  destruct (loop_shape _ _ _ _ _ _ _ _ _ _ Pi) as (Ln & H0 & Hst). split; [exact Ln|]. split; [exact H0|].
  intros t Ht'. specialize (Hst t Ht'). unfold path_step in Hst. apply bind_Ret_inv in Hst. destruct Hst as (z & Hz & Hst).
  simpl (0 + t)%nat in *. exists z. cbv zeta. split; [exists f; split; assumption|]. rewrite <- Ej. exact Hst.
Qed.

(** The step equations, in real arithmetic *)
Theorem euler_step_real : forall p h x t z j mu sg,
  drift p (Some x) t = Ret (Some mu) -> diffusion p (Some x) t = Ret (Some sg) ->
  euler_step p h (Some x) t z (Some j) = Ret (Some (x + mu * h + sg * (sqrt h * z) + j)).
Proof. intros. unfold euler_step. rewrite H, H0. cbn. f_equal. f_equal. ring. Qed.

(** ** Seeds *)

(** A seeded simulation without jumps depends on the configuration and the
    seeded generator only, not on ambient randomness, not on [parallel], not on
    the schedule. *)
Theorem seeded_reproducible : forall e e' p cfg cfg' sch sch' s,
  complete cfg sch -> complete cfg' sch' ->
  seed cfg = Some s ->
  (forall z k, rng e z k = rng e' z k) ->
  cfg' = Config (x_0 cfg) (t_0 cfg) (t_n cfg) (n_steps cfg) (cfg_scheme cfg) (m_paths cfg) (parallel cfg') (Some s) ->
  generate e p cfg sch = generate e' p cfg' sch'.
Proof.
  intros e e' p cfg cfg' sch sch' s Hc Hc' Hs Hr Hcfg.
  assert (X : forall e cfg sch, complete cfg sch -> generate e p cfg sch =
    assertb (Rltb (t_0 cfg) (t_n cfg)) (let! ps := serial_paths e p cfg (Dynamic (match seed cfg with Some s => s | None => entropy e end)) None in Ret (times cfg, ps))).
  { intros e0 cfg0 sch0 H0. unfold generate, simulate. destruct (Rltb (t_0 cfg0) (t_n cfg0)); cbn [assertb bind]; [|reflexivity].
    destruct (parallel cfg0); [rewrite parallel_equals_serial by assumption|]; reflexivity. }
  rewrite !X by assumption. rewrite Hs. rewrite Hcfg. cbn [seed t_0 t_n].
  destruct (Rltb (t_0 cfg) (t_n cfg)); cbn [assertb]; [|reflexivity].
  set (cfg2 := Config _ _ _ _ _ _ _ _).
  assert (E : serial_paths e p cfg (Dynamic s) None = serial_paths e' p cfg2 (Dynamic s) None).
  { unfold serial_paths. cbn [m_paths cfg2]. f_equal. apply map_ext. intros i. unfold path. cbn [path_noise bind].
    change (n_steps cfg2) with (n_steps cfg). change (x_0 cfg2) with (x_0 cfg).
    assert (Lp : forall k t x, path_loop e p cfg None i (fun t => Ret (rng e (u64_wrapping_add s (Z.of_nat i)) t)) t k x =
                              path_loop e' p cfg2 None i (fun t => Ret (rng e' (u64_wrapping_add s (Z.of_nat i)) t)) t k x).
    { induction k as [|k IH]; intros t x; cbn [path_loop]; [reflexivity|].
      unfold path_step. cbn [bind]. rewrite Hr. cbn [jump_term].
      change (cfg_scheme cfg2) with (cfg_scheme cfg). change (dt cfg2) with (dt cfg). change (time_at cfg2 t) with (time_at cfg t).
      destruct (step_of _ _ _ _ _ _ _); cbn [bind]; [|reflexivity..]. rewrite IH. reflexivity. }
    apply Lp. }
  rewrite E. reflexivity.
Qed.

(** Adding paths never changes the earlier ones. *)
Theorem more_paths_extend : forall e p cfg m' sch sch' s ts ps ts' ps',
  let cfg' := Config (x_0 cfg) (t_0 cfg) (t_n cfg) (n_steps cfg) (cfg_scheme cfg) m' (parallel cfg) (seed cfg) in
  complete cfg sch -> complete cfg' sch' -> seed cfg = Some s -> (m_paths cfg <= m')%nat ->
  generate e p cfg sch = Ret (ts, ps) -> generate e p cfg' sch' = Ret (ts', ps') ->
  forall i, (i < m_paths cfg)%nat -> nth i ps' [] = nth i ps [].
Proof.
  intros e p cfg m' sch sch' s ts ps ts' ps' cfg' Hc Hc' Hs Hm H H' i Hi.
  assert (X : forall cfg sch ts ps, complete cfg sch -> generate e p cfg sch = Ret (ts, ps) ->
    map Ret ps = map (path e p cfg (Dynamic (match seed cfg with Some s => s | None => entropy e end)) None) (seq 0 (m_paths cfg))).
  { clear. intros cfg sch ts ps Hc H. unfold generate, simulate in H. unfold assertb in H. destruct (Rltb (t_0 cfg) (t_n cfg)); [|discriminate].
    cbn [bind] in H. apply bind_Ret_inv in H. destruct H as (ps' & Hp & H). assert (ps' = ps) by congruence. subst.
    assert (Hs : serial_paths e p cfg (Dynamic (match seed cfg with Some s => s | None => entropy e end)) None = Ret ps).
    { destruct (parallel cfg); [rewrite <- (parallel_equals_serial e p cfg _ _ sch Hc)|]; exact Hp. }
    symmetry. apply collect_inv, Hs. }
  pose proof (X _ _ _ _ Hc H) as E. pose proof (X _ _ _ _ Hc' H') as E'.
  apply (f_equal (fun l => nth i l (Ret []))) in E, E'.
  rewrite (map_nth Ret) in E, E'.
  rewrite (nth_indep _ _ (path e p cfg (Dynamic (match seed cfg with Some s => s | None => entropy e end)) None 0%nat)) in E by (rewrite map_length, seq_length; exact Hi).
  rewrite (nth_indep _ _ (path e p cfg' (Dynamic (match seed cfg' with Some s => s | None => entropy e end)) None 0%nat)) in E' by (rewrite map_length, seq_length; simpl; lia).
  rewrite map_nth, seq_nth in E by exact Hi. rewrite map_nth, seq_nth in E' by (simpl; lia).
  assert (Y : path e p cfg' (Dynamic s) None (0 + i) = path e p cfg (Dynamic s) None (0 + i)).
  { unfold path. cbn [path_noise bind]. apply (f_equal (fun f => f (0%nat) (n_steps cfg) (Some (x_0 cfg)))).
    extensionality t. extensionality k. revert t. induction k as [|k IH]; intros t; extensionality x; cbn [path_loop]; [reflexivity|].
    unfold path_step. change (cfg_scheme cfg') with (cfg_scheme cfg). change (dt cfg') with (dt cfg). change (time_at cfg' t) with (time_at cfg t).
    cbn [bind]. destruct (step_of _ _ _ _ _ _ _); cbn [bind]; [|reflexivity..]. rewrite IH. reflexivity. }
  cbn [seed cfg'] in E'. rewrite Hs in E, E'. congruence.
Qed.

(** Finding: path i under seed s+1 is path i+1 under seed s, so runs with
    neighbouring seeds share all but one path. *)
Theorem neighbouring_seeds_overlap_refuted : forall e p cfg s i, (0 <= s)%Z -> (Z.of_nat i + s + 1 < 2 ^ 64)%Z ->
  path e p cfg (Dynamic (s + 1)) None i = path e p cfg (Dynamic s) None (Datatypes.S i).
Proof.
  intros e p cfg s i Hs Hb. unfold path. cbn [path_noise bind].
  replace (u64_wrapping_add (s + 1) (Z.of_nat i)) with (u64_wrapping_add s (Z.of_nat (Datatypes.S i))) by (unfold u64_wrapping_add; f_equal; lia).
  apply loop_ext. intros j y _. unfold path_step. cbn [bind jump_term]. reflexivity.
Qed.

(** Finding: with the Cholesky method and a seed every fractional path is the
    same path. *)
Theorem seeded_fractional_paths_identical_refuted : forall e chol fresh p h cfg s sch ts ps,
  complete cfg sch -> seed cfg = Some s ->
  fractional_cholesky e chol fresh p h cfg sch = Ret (ts, ps) ->
  forall i j, (i < m_paths cfg)%nat -> (j < m_paths cfg)%nat -> nth i ps [] = nth j ps [].
Proof.
  intros e chol fresh p h cfg s sch ts ps Hc Hs H i j Hi Hj. unfold fractional_cholesky, simulate in H. rewrite Hs in H.
  unfold assertb in H. destruct (Rltb (t_0 cfg) (t_n cfg)); [|discriminate]. cbn [bind] in H.
  apply bind_Ret_inv in H. destruct H as (ps' & Hp & H). assert (ps' = ps) by congruence. subst.
  set (src := Fractional (fgn_cholesky chol (rng e) fresh h (n_steps cfg) (t_n cfg) (Some s))) in *.
  assert (Hs' : serial_paths e p cfg src None = Ret ps).
  { destruct (parallel cfg); [rewrite <- (parallel_equals_serial e p cfg _ _ sch Hc)|]; exact Hp. }
  apply collect_inv in Hs'.
  assert (G : forall i, (i < m_paths cfg)%nat -> path e p cfg src None i = Ret (nth i ps [])).
  { intros k Hk. apply (f_equal (fun l => nth k l (Ret []))) in Hs'.
    rewrite (map_nth Ret) in Hs'. rewrite (nth_indep _ _ (path e p cfg src None 0%nat)) in Hs' by (rewrite map_length, seq_length; exact Hk).
    rewrite map_nth, seq_nth in Hs' by exact Hk. exact Hs'. }
  pose proof (G i Hi) as Ei. pose proof (G j Hj) as Ej.
  assert (E : path e p cfg src None i = path e p cfg src None j).
  { unfold path, src. cbn [path_noise]. unfold fgn_cholesky. destruct (chol h (n_steps cfg)); cbn [bind]; [|reflexivity..].
    apply loop_ext. intros t y _. unfold path_step. cbn [jump_term]. reflexivity. }
  congruence.
Qed.

(** ** Closed forms for the Euler scheme *)

Lemma path_dyn e p cfg s jumps i : path e p cfg (Dynamic s) jumps i =
  path_loop e p cfg jumps i (fun t => Ret (rng e (u64_wrapping_add s (Z.of_nat i)) t)) 0 (n_steps cfg) (Some (x_0 cfg)).
Proof. reflexivity. Qed.

(** If every step maps a finite x to the finite [f t x], the path is the orbit. *)
Fixpoint orbit (f : nat -> R -> R) (x : R) (t k : nat) : list R :=
  match k with O => [x] | Datatypes.S k' => x :: orbit f (f t x) (Datatypes.S t) k' end.
Lemma loop_orbit e p cfg jumps i nz f k : forall t x,
  (forall j y, (t <= j < t + k)%nat -> path_step e p cfg jumps i nz j (Some y) = Ret (Some (f j y))) ->
  path_loop e p cfg jumps i nz t k (Some x) = Ret (map Some (orbit f x t k)).
Proof.
  induction k as [|k IH]; intros t x H; cbn [path_loop orbit map]; [reflexivity|].
  rewrite H by lia. cbn [bind]. rewrite IH by (intros; apply H; lia). reflexivity.
Qed.
Lemma orbit_nth f k : forall x t j, (j < k)%nat -> nth (Datatypes.S j) (orbit f x t k) 0 = f (t + j)%nat (nth j (orbit f x t k) 0).
Proof.
  induction k as [|k IH]; intros x t j Hj; [lia|]. cbn [orbit]. destruct j as [|j].
  - rewrite Nat.add_0_r. destruct k; reflexivity.
  - change (nth (Datatypes.S (Datatypes.S j)) (x :: orbit f (f t x) (Datatypes.S t) k) 0) with (nth (Datatypes.S j) (orbit f (f t x) (Datatypes.S t) k) 0).
    rewrite IH by lia. simpl nth at 2. f_equal. lia.
Qed.
Lemma orbit_hd f k x t : nth 0 (orbit f x t k) 0 = x.
Proof. destruct k; reflexivity. Qed.
Lemma nth_map_some l : forall j, (j < length l)%nat -> nth j (map Some l) None = Some (nth j l 0).
Proof. induction l as [|a l IH]; intros j Hj; simpl in Hj; [lia|]. destruct j; [reflexivity|]. apply IH. lia. Qed.
Lemma orbit_length f k : forall x t, length (orbit f x t k) = Datatypes.S k.
Proof. induction k; intros; simpl; auto. Qed.

(** the k-th point of path i of a successful seeded run *)
Definition psum (f : nat -> R) (k : nat) : R := rsum (map f (seq 0 k)).
Lemma psum_S f k : psum f (Datatypes.S k) = psum f k + f k.
Proof. unfold psum. rewrite seq_S, map_app, rsum_app. simpl. lra. Qed.

(** Arithmetic (hence standard) Brownian motion: x0 + sum mu dt + sqrt dt * sum sigma z *)
Theorem euler_abm_closed_form : forall e mu sigma cfg s i,
  cfg_scheme cfg = EulerMaruyama -> (forall t, 0 <= sigma t) ->
  exists xs, path e (abm mu sigma) cfg (Dynamic s) None i = Ret (map Some xs) /\ length xs = Datatypes.S (n_steps cfg) /\
    forall k, (k <= n_steps cfg)%nat -> nth k xs 0 =
      x_0 cfg + dt cfg * psum (fun j => mu (time_at cfg j)) k
      + sqrt (dt cfg) * psum (fun j => sigma (time_at cfg j) * rng e (u64_wrapping_add s (Z.of_nat i)) j) k.
Proof.
  intros e mu sigma cfg s i Hsch Hsig.
  set (z := rng e (u64_wrapping_add s (Z.of_nat i))).
  set (f := fun j y => y + mu (time_at cfg j) * dt cfg + sigma (time_at cfg j) * (sqrt (dt cfg) * z j) + 0).
  exists (orbit f (x_0 cfg) 0 (n_steps cfg)). split; [|split].
  - rewrite path_dyn. apply loop_orbit. intros j y _. unfold path_step. cbn [bind jump_term]. rewrite Hsch. cbn [step_of].
    apply euler_step_real; [reflexivity|]. simpl. unfold checked, assertb. destruct (Rltb_spec (sigma (time_at cfg j)) 0); [|reflexivity].
    specialize (Hsig (time_at cfg j)). lra.
  - apply orbit_length.
  - induction k as [|k IH]; intros Hk.
    + rewrite orbit_hd. unfold psum. simpl. lra.
    + rewrite orbit_nth by lia. simpl (0 + k)%nat. rewrite IH by lia. rewrite !psum_S. unfold f. fold (z k). ring.
Qed.

Lemma abm_brownian e cfg src jumps i : path e brownian_motion cfg src jumps i = path e (abm (fun _ => 0) (fun _ => 1)) cfg src jumps i.
Proof.
  replace (abm (fun _ => 0) (fun _ => 1)) with brownian_motion; [reflexivity|].
  unfold abm, brownian_motion. f_equal. extensionality x. extensionality t. unfold checked, assertb. destruct (Rltb_spec 1 0); [lra|reflexivity].
Qed.

(** Geometric Brownian motion: product of the growth factors. *)
Fixpoint pprod (f : nat -> R) (k : nat) : R := match k with O => 1 | Datatypes.S k' => pprod f k' * f k' end.
Theorem euler_gbm_closed_form : forall e mu sigma cfg s i,
  cfg_scheme cfg = EulerMaruyama -> (forall t, 0 <= sigma t) ->
  exists xs, path e (gbm mu sigma) cfg (Dynamic s) None i = Ret (map Some xs) /\ length xs = Datatypes.S (n_steps cfg) /\
    forall k, (k <= n_steps cfg)%nat -> nth k xs 0 =
      x_0 cfg * pprod (fun j => 1 + mu (time_at cfg j) * dt cfg
                   + sigma (time_at cfg j) * sqrt (dt cfg) * rng e (u64_wrapping_add s (Z.of_nat i)) j) k.
Proof.
  intros e mu sigma cfg s i Hsch Hsig.
  set (z := rng e (u64_wrapping_add s (Z.of_nat i))).
  set (f := fun j y => y + mu (time_at cfg j) * y * dt cfg + sigma (time_at cfg j) * y * (sqrt (dt cfg) * z j) + 0).
  exists (orbit f (x_0 cfg) 0 (n_steps cfg)). split; [|split].
  - rewrite path_dyn. apply loop_orbit. intros j y _. unfold path_step. cbn [bind jump_term]. rewrite Hsch. cbn [step_of].
    apply euler_step_real; [reflexivity|]. simpl. unfold checked, assertb. destruct (Rltb_spec (sigma (time_at cfg j)) 0); [|reflexivity].
    specialize (Hsig (time_at cfg j)). lra.
  - apply orbit_length.
  - induction k as [|k IH]; intros Hk.
    + rewrite orbit_hd. simpl. lra.
    + rewrite orbit_nth by lia. simpl (0 + k)%nat. rewrite IH by lia. cbn [pprod]. unfold f. fold (z k). ring.
Qed.

(** Ornstein-Uhlenbeck with constant parameters: the deviation from the mean
    contracts by 1 - theta dt per step and picks up sigma sqrt dt z. *)
Theorem euler_ou_recurrence : forall e mu sigma theta cfg s i,
  cfg_scheme cfg = EulerMaruyama -> 0 <= sigma ->
  exists xs, path e (ou (fun _ => mu) (fun _ => sigma) (fun _ => theta)) cfg (Dynamic s) None i = Ret (map Some xs) /\
    length xs = Datatypes.S (n_steps cfg) /\ nth 0 xs 0 = x_0 cfg /\
    (forall k, (k < n_steps cfg)%nat -> nth (Datatypes.S k) xs 0 - mu =
      (1 - theta * dt cfg) * (nth k xs 0 - mu) + sigma * sqrt (dt cfg) * rng e (u64_wrapping_add s (Z.of_nat i)) k) /\
    (sigma = 0 -> forall k, (k <= n_steps cfg)%nat -> nth k xs 0 = mu + (1 - theta * dt cfg) ^ k * (x_0 cfg - mu)).
Proof.
  intros e mu sigma theta cfg s i Hsch Hsig.
  set (z := rng e (u64_wrapping_add s (Z.of_nat i))).
  set (f := fun (j : nat) y => y + theta * (mu - y) * dt cfg + sigma * (sqrt (dt cfg) * z j) + 0).
  assert (R : forall k, (k < n_steps cfg)%nat -> nth (Datatypes.S k) (orbit f (x_0 cfg) 0 (n_steps cfg)) 0 - mu =
      (1 - theta * dt cfg) * (nth k (orbit f (x_0 cfg) 0 (n_steps cfg)) 0 - mu) + sigma * sqrt (dt cfg) * z k).
  { intros k Hk. rewrite orbit_nth by lia. simpl (0 + k)%nat. unfold f at 1. ring. }
  exists (orbit f (x_0 cfg) 0 (n_steps cfg)). split; [|split; [|split; [|split]]].
  - rewrite path_dyn. apply loop_orbit. intros j y _. unfold path_step. cbn [bind jump_term]. rewrite Hsch. cbn [step_of].
    apply euler_step_real; [reflexivity|]. simpl. unfold checked, assertb. destruct (Rltb_spec sigma 0); [lra|reflexivity].
  - apply orbit_length.
  - apply orbit_hd.
  - exact R.
  - intros Hs0 k. induction k as [|k IH]; intros Hk; [rewrite orbit_hd; simpl; lra|].
    specialize (R k). rewrite IH in R by lia. rewrite Hs0 in R. simpl. assert (k < n_steps cfg)%nat by lia. specialize (R H). lra.
Qed.

(** ** C46 refuted: the Milstein and Strang schemes ignore the step size in the
    noise.  For Brownian motion the simulated path is x0 + z_0 + ... + z_{k-1},
    whatever the time interval: the variance grows with the number of steps. *)
Theorem milstein_strang_brownian_refuted : forall e cfg s i,
  cfg_scheme cfg <> EulerMaruyama ->
  exists xs, path e brownian_motion cfg (Dynamic s) None i = Ret (map Some xs) /\ length xs = Datatypes.S (n_steps cfg) /\
    forall k, (k <= n_steps cfg)%nat -> nth k xs 0 = x_0 cfg + psum (rng e (u64_wrapping_add s (Z.of_nat i))) k.
Proof.
  intros e cfg s i Hsch. set (z := rng e (u64_wrapping_add s (Z.of_nat i))).
  set (f := fun j (y : R) => y + z j).
  exists (orbit f (x_0 cfg) 0 (n_steps cfg)). split; [|split].
  - rewrite path_dyn. apply loop_orbit. intros j y _. unfold path_step. cbn [bind jump_term].
    destruct (cfg_scheme cfg); [congruence| |]; cbn; f_equal; f_equal; unfold f; fold z; field.
  - apply orbit_length.
  - induction k as [|k IH]; intros Hk.
    + rewrite orbit_hd. unfold psum. simpl. lra.
    + rewrite orbit_nth by lia. simpl (0 + k)%nat. rewrite IH by lia. rewrite psum_S. unfold f. ring.
Qed.
(** ... so two configurations over different horizons give the same path, while
    the Euler scheme scales with sqrt dt. *)
Corollary milstein_ignores_horizon_refuted : forall e cfg s i t_n',
  cfg_scheme cfg <> EulerMaruyama ->
  path e brownian_motion cfg (Dynamic s) None i =
  path e brownian_motion (Config (x_0 cfg) (t_0 cfg) t_n' (n_steps cfg) (cfg_scheme cfg) (m_paths cfg) (parallel cfg) (seed cfg)) (Dynamic s) None i.
Proof.
  intros e cfg s i t' Hs.
  set (cfg' := Config _ _ _ _ _ _ _ _).
  destruct (milstein_strang_brownian_refuted e cfg s i Hs) as (xs & -> & L & H).
  destruct (milstein_strang_brownian_refuted e cfg' s i Hs) as (ys & -> & L' & H').
  f_equal. f_equal. apply (nth_ext _ _ 0 0); [rewrite L, L'; reflexivity|]. intros k Hk. rewrite H, H' by (simpl; lia). reflexivity.
Qed.

(** Milstein's correction for sigma(x) = sigma x uses sigma * 1e-10 in place of
    the derivative sigma. *)
Theorem milstein_correction_refuted : forall mu sigma h x t dw, 0 <= sigma ->
  milstein_step (gbm (fun _ => mu) (fun _ => sigma)) h (Some x) t dw (Some 0) =
  Ret (Some (x + mu * x * h + sigma * x * dw + 1 / 2 * (sigma * x) * (sigma * (1 / 100000 * (1 / 100000))) * (dw * dw - h))).
Proof.
  intros. unfold milstein_step, gbm. simpl. unfold checked, assertb. destruct (Rltb_spec sigma 0); [lra|]. simpl.
  f_equal. f_equal. field.
Qed.

(** What holds: without noise all three schemes are the explicit Euler method
    for dx = mu(x,t) dt. *)
Theorem schemes_agree_without_diffusion : forall s p h x t z mu,
  drift p (Some x) t = Ret (Some mu) -> (forall y u, diffusion p (Some y) u = Ret (Some 0)) ->
  step_of s p h (Some x) t z (Some 0) = Ret (Some (x + mu * h)).
Proof.
  intros s p h x t z mu Hm Hd. destruct s; cbn [step_of].
  - rewrite (euler_step_real _ _ _ _ _ _ mu 0) by auto. f_equal. f_equal. ring.
  - unfold milstein_step. rewrite Hm, Hd. cbn. rewrite !Hd. cbn. f_equal. f_equal. field.
  - unfold strang_step. rewrite Hm. cbn. rewrite Hd. cbn. f_equal. f_equal. field.
Qed.

(** The splitting takes half a drift step, reads the diffusion there and in the middle of the
    time step, and takes the other half; Milstein reads the diffusion at three points. *)
Theorem strang_step_real : forall p h x t z j mu sg, drift p (Some x) t = Ret (Some mu) -> diffusion p (Some (x + mu * h / 2)) (t + h / 2) = Ret (Some sg) ->
  strang_step p h (Some x) t z (Some j) = Ret (Some (x + mu * h + sg * z + j)).
Proof.
  intros p h x t z j mu sg Hm Hd. unfold strang_step. rewrite Hm. cbn.
  replace (x + 1 / 2 * mu * h) with (x + mu * h / 2) by field. replace (t + 1 / 2 * h) with (t + h / 2) by field. rewrite Hd. cbn. f_equal. f_equal. field.
Qed.
Theorem milstein_step_real : forall p h x t dw j mu sg up dn, drift p (Some x) t = Ret (Some mu) -> diffusion p (Some x) t = Ret (Some sg) ->
  diffusion p (Some (x + 1 / 100000)) t = Ret (Some up) -> diffusion p (Some (x - 1 / 100000)) t = Ret (Some dn) ->
  milstein_step p h (Some x) t dw (Some j) = Ret (Some (x + mu * h + sg * dw + sg * ((up - dn) / 2 / 100000) * (dw ^ 2 - h) / 2 + j)).
Proof. intros p h x t dw j mu sg up dn Hm Hd Hu Hn. unfold milstein_step. rewrite Hm, Hd. cbn. rewrite Hu. cbn. rewrite Hn. cbn. f_equal. f_equal. field. Qed.
Print Assumptions strang_step_real.
Print Assumptions milstein_step_real.
(** the hypotheses are met by geometric Brownian motion, where half a step counts *)
Example strang_step_case : exists mu sg, drift (gbm (fun _ => 2) (fun t => t)) (Some 3) 1 = Ret (Some mu) /\
  diffusion (gbm (fun _ => 2) (fun t => t)) (Some (3 + mu * 2 / 2)) (1 + 2 / 2) = Ret (Some sg) /\ mu = 6 /\ sg = 18.
Proof.
  exists 6, 18. cbn. unfold checked, assertb. split; [do 2 f_equal; lra|]. split; [|split; reflexivity].
  destruct (Rltb_spec (1 + 2 / 2) 0); [lra|]. cbn. do 2 f_equal. lra.
Qed.

(** ** Panics and non-finite values *)

(** A negative volatility anywhere on the grid makes the run panic. *)
Theorem negative_volatility_panics : forall e mu sigma cfg s i,
  (0 < n_steps cfg)%nat -> sigma (t_0 cfg) < 0 -> cfg_scheme cfg <> StrangSplitting ->
  path e (gbm mu sigma) cfg (Dynamic s) None i = Panic.
Proof.
  intros e mu sigma cfg s i Hn Hs Hc. rewrite path_dyn. destruct (n_steps cfg) eqn:E; [lia|]. cbn [path_loop].
  assert (T : time_at cfg 0 = t_0 cfg) by (unfold time_at; simpl; lra).
  unfold path_step at 1. cbn [bind]. rewrite T.
  destruct (cfg_scheme cfg); try congruence; cbn; unfold checked, assertb; destruct (Rltb_spec (sigma (t_0 cfg)) 0); try lra; reflexivity.
Qed.

(** CIR: once the Euler scheme steps below zero every later value is NaN. *)
Theorem cir_negative_is_nan : forall mu sigma theta h x t z j,
  (forall t, 0 <= sigma t) -> x < 0 -> euler_step (cir mu sigma theta) h (Some x) t z j = Ret None.
Proof.
  intros. unfold euler_step, cir. simpl. unfold checked, assertb. destruct (Rltb_spec (sigma t) 0); [specialize (H t); lra|].
  simpl. destruct (Rltb_spec x 0); [|lra]. reflexivity.
Qed.
Theorem nan_is_absorbing : forall s p h t z j mu sg,
  drift p None t = Ret mu -> (forall u, diffusion p None u = Ret (sg u)) -> step_of s p h None t z j = Ret None.
Proof.
  intros s p h t z j mu sg Hm Hd. destruct s; cbn [step_of]; unfold euler_step, milstein_step, strang_step; rewrite Hm; cbn; rewrite ?Hd; cbn; rewrite ?Hd; reflexivity.
Qed.
Theorem cir_can_leave_domain_refuted : exists mu sigma theta h x t z, 0 < x /\ 0 < mu /\ 0 < theta /\ 0 < sigma /\ 0 < h /\
  exists y, euler_step (cir (fun _ => mu) (fun _ => sigma) (fun _ => theta)) h (Some x) t z (Some 0) = Ret (Some y) /\ y < 0.
Proof.
  exists 1, 1, 1, 1, 1, 0, (-5). repeat (split; [lra|]).
  exists (-4). split; [|lra]. unfold euler_step, cir. simpl. unfold checked, assertb. destruct (Rltb_spec 1 0); [lra|]. simpl.
  destruct (Rltb_spec 1 0); [lra|]. simpl. rewrite sqrt_1. f_equal. f_equal. lra.
Qed.

(** ** Jumps *)

(** Findings: all paths jump at the same steps; a count above one still gives one
    jump; the jump is added, not multiplied into the price. *)
Theorem merton_jump_term : forall mu sigma m v z x t c,
  jump_term (merton mu sigma m v) z x t (Some c) = Some (if Rltb 0 c then m + sqrt v * z else 0).
Proof. intros. simpl. unfold calculate_jump. simpl. destruct (Rltb 0 c); reflexivity. Qed.
Theorem merton_jump_count_ignored_refuted : forall p draw x t c c', 0 < c -> 0 < c' ->
  jump_term p draw x t (Some c) = jump_term p draw x t (Some c').
Proof.
  intros. simpl. unfold calculate_jump. destruct (jump p draw x t); [|reflexivity].
  destruct (Rltb_spec 0 c), (Rltb_spec 0 c'); try lra; reflexivity.
Qed.
Theorem merton_needs_steps_and_rate : forall e mu sigma lambda m v cfg sch,
  (n_steps cfg = 0%nat \/ lambda 0 <= 0) -> merton_generate e mu sigma lambda m v cfg sch = Panic.
Proof.
  intros e mu sigma lambda m v cfg sch H. unfold merton_generate, simulate. unfold assertb.
  destruct (Rltb_spec (t_0 cfg) (t_n cfg)); [|reflexivity]. destruct (Nat.eqb_spec (n_steps cfg) 0); [reflexivity|]. cbn [negb].
  destruct H as [H|H]; [contradiction|].
  destruct (Rltb_spec 0 (lambda 0 * dt cfg)); [|reflexivity]. exfalso.
  assert (0 < dt cfg) by (unfold dt; apply Rdiv_lt_0_compat; [lra|apply lt_0_INR; lia]). nra.
Qed.

(** ** The Black-Derman-Toy numeric derivative is exact for quadratics *)
Theorem bdt_diff_exact : forall a b c t, diff (fun t => a + b * t + c * (t * t)) t = b + 2 * c * t.
Proof.
  intros a b c t. assert (H : diff_eps t <> 0).
  { unfold diff_eps. assert (0 < Rpower (/ 2 ^ 52) (1 / 3)) by apply exp_pos. destruct (Reqb_spec t 0); [lra|]. apply Rmult_integral_contrapositive. lra. }
  unfold diff. revert H. generalize (diff_eps t). intros eps H. field. exact H.
Qed.
(** Constant volatility: the drift is theta alone. *)
Corollary bdt_constant_sigma : forall sigma theta x t, sigma <> 0 ->
  drift (black_derman_toy (fun _ => sigma) theta) (Some x) t = Ret (Some (theta t)).
Proof.
  intros. simpl. assert (E : diff (fun _ => sigma) t = 0).
  { pose proof (bdt_diff_exact sigma 0 0 t) as E. rewrite Rmult_0_r, Rmult_0_l, Rplus_0_l in E. rewrite <- E. f_equal. extensionality u. ring. }
  rewrite E. unfold fdiv. destruct (Reqb_spec sigma 0); [contradiction|]. simpl. f_equal. f_equal. field. exact H.
Qed.

(** The geometric Brownian bridge pulls towards its end value: at that value the
    drift is mu x, below it is larger, above smaller. *)
Theorem gbb_drift_pull : forall mu sigma v T x t, 0 < x -> 0 < v -> t < T ->
  exists d, drift (gbb mu sigma v T) (Some x) t = Ret (Some d) /\
    (x = v -> d = mu t * x) /\ (x < v -> d > mu t * x) /\ (x > v -> d < mu t * x).
Proof.
  intros mu sigma v T x t Hx Hv Ht. exists (mu t * x + (ln v - ln x) / (T - t) * x). split; [|split; [|split]].
  - simpl. destruct (Rltb_spec 0 v); [|lra]. destruct (Rltb_spec 0 x); [|lra]. simpl. unfold fdiv. destruct (Reqb_spec (T - t) 0); [lra|]. reflexivity.
  - intros ->. unfold Rminus. rewrite Rplus_opp_r. unfold Rdiv. lra.
  - intros H. assert (ln x < ln v) by (apply ln_increasing; lra).
    assert (0 < (ln v - ln x) / (T - t)) by (apply Rdiv_lt_0_compat; lra). nra.
  - intros H. assert (ln v < ln x) by (apply ln_increasing; lra).
    assert (0 < (ln x - ln v) / (T - t)) by (apply Rdiv_lt_0_compat; lra).
    replace ((ln v - ln x) / (T - t)) with (- ((ln x - ln v) / (T - t))) by (field; lra). nra.
Qed.

(** ** Relations between the processes, at the level of simulated paths *)

(** Steps that agree on finite states give equal paths as long as states stay
    finite; here steps agree everywhere. *)
Lemma path_process_ext : forall e p q cfg src i,
  (forall x t, drift p x t = drift q x t) -> (forall x t, diffusion p x t = diffusion q x t) ->
  path e p cfg src None i = path e q cfg src None i.
Proof.
  intros e p q cfg src i Hm Hd. unfold path. destruct (path_noise e src i) as [f| |]; cbn [bind]; [|reflexivity..].
  generalize 0%nat as t. generalize (Some (x_0 cfg)) as x. generalize (n_steps cfg) as k.
  induction k as [|k IH]; intros x t; cbn [path_loop]; [reflexivity|].
  assert (E : path_step e p cfg None i f t x = path_step e q cfg None i f t x).
  { unfold path_step. destruct (f t) as [z| |]; cbn [bind jump_term]; [|reflexivity..].
    destruct (cfg_scheme cfg); cbn [step_of]; unfold euler_step, milstein_step, strang_step; rewrite Hm.
    - destruct (drift q x (time_at cfg t)); cbn [bind]; [|reflexivity..]. rewrite Hd. reflexivity.
    - destruct (drift q x (time_at cfg t)); cbn [bind]; [|reflexivity..]. rewrite !Hd. reflexivity.
    - destruct (drift q x (time_at cfg t)); cbn [bind]; [|reflexivity..]. rewrite !Hd. reflexivity. }
  rewrite E. destruct (path_step e q cfg None i f t x); cbn [bind]; [|reflexivity..]. rewrite IH. reflexivity.
Qed.

(** Hull-White (= extended Vasicek) with theta = alpha mu is Ornstein-Uhlenbeck
    with speed alpha and level mu, in every scheme and for every noise. *)
Theorem hull_white_is_ou : forall e alpha mu sigma cfg src i, (forall t, 0 <= sigma t) ->
  path e (hull_white alpha sigma (fun t => alpha t * mu t)) cfg src None i = path e (ou mu sigma alpha) cfg src None i.
Proof.
  intros. apply path_process_ext; intros x t; simpl.
  - destruct x; simpl; [|reflexivity]. f_equal. f_equal. ring.
  - unfold checked, assertb. destruct (Rltb_spec (sigma t) 0); [specialize (H t); lra|reflexivity].
Qed.
(** Ho-Lee is arithmetic Brownian motion with drift theta (and refuses a negative theta). *)
Theorem ho_lee_is_abm : forall e sigma theta cfg src i, (forall t, 0 <= theta t) ->
  path e (ho_lee sigma theta) cfg src None i = path e (abm theta sigma) cfg src None i.
Proof.
  intros. apply path_process_ext; intros x t; simpl; [|reflexivity].
  unfold checked, assertb. destruct (Rltb_spec (theta t) 0); [specialize (H t); lra|reflexivity].
Qed.
Theorem ho_lee_negative_theta_panics : forall s sigma theta h x t z j, theta t < 0 ->
  step_of s (ho_lee sigma theta) h x t z j = Panic.
Proof.
  intros. destruct s; cbn [step_of]; unfold euler_step, milstein_step, strang_step; simpl; unfold checked, assertb;
    destruct (Rltb_spec (theta t) 0); try lra; reflexivity.
Qed.
(** CEV at elasticity one is geometric Brownian motion, at elasticity one half it
    has the square-root diffusion of CIR; outside [0,1] it panics. *)
Theorem cev_one_is_gbm : forall e mu sigma cfg src i,
  path e (cev mu sigma (fun _ => 1)) cfg src None i = path e (gbm mu sigma) cfg src None i.
Proof.
  intros. apply path_process_ext; intros x t; simpl; [reflexivity|]. unfold checked.
  assert (E : fpowf x 1 = x).
  { unfold fpowf. destruct (Reqb_spec 1 0); [lra|]. destruct x as [x|]; [|reflexivity].
    destruct (Rltb_spec 0 x); [rewrite Rpower_1 by assumption; reflexivity|]. destruct (Reqb_spec x 0); [subst; reflexivity|].
    destruct (Reqb_spec 1 1); [reflexivity|lra]. }
  rewrite E. destruct (Rltb (sigma t) 0); [reflexivity|]. unfold assertb. cbn [negb].
  destruct (Rltb_spec 1 0); [lra|]. destruct (Rltb_spec 1 1); [lra|]. reflexivity.
Qed.
Theorem cev_special_cases : forall mu sigma theta lvl x t, 0 <= x -> 0 <= sigma t ->
  diffusion (cev mu sigma (fun _ => 1 / 2)) (Some x) t = diffusion (cir lvl sigma theta) (Some x) t /\
  (forall el, el < 0 \/ 1 < el -> diffusion (cev mu sigma (fun _ => el)) (Some x) t = Panic).
Proof.
  intros mu sigma theta lvl x t Hx Hs. simpl. unfold checked, assertb, fpowf, fsqrt.
  destruct (Rltb_spec (sigma t) 0); [lra|]. cbn [negb].
  split.
  - destruct (Rltb_spec (1 / 2) 0); [lra|]. destruct (Rltb_spec 1 (1 / 2)); [lra|]. cbn [negb andb]. destruct (Rltb_spec x 0); [lra|].
    destruct (Reqb_spec (1 / 2) 0); [lra|]. destruct (Rltb_spec 0 x).
    + replace (1 / 2) with (/ 2) by lra. rewrite Rpower_sqrt by assumption. reflexivity.
    + destruct (Reqb_spec x 0); [|lra]. subst. rewrite sqrt_0. reflexivity.
  - intros el [H|H]; [destruct (Rltb_spec el 0); [|lra]|destruct (Rltb_spec 1 el); [|lra]; rewrite andb_false_r]; reflexivity.
Qed.
(** CIR in real arithmetic while the rate is non-negative. *)
Theorem cir_step_real : forall mu sigma theta h x t z, 0 <= x -> 0 <= sigma t ->
  euler_step (cir mu sigma theta) h (Some x) t z (Some 0) =
  Ret (Some (x + theta t * (mu t - x) * h + sigma t * sqrt x * (sqrt h * z))).
Proof.
  intros. rewrite (euler_step_real _ _ _ _ _ _ (theta t * (mu t - x)) (sigma t * sqrt x)); [f_equal; f_equal; ring|reflexivity|].
  simpl. unfold checked, assertb. destruct (Rltb_spec (sigma t) 0); [lra|]. simpl. destruct (Rltb_spec x 0); [lra|]. reflexivity.
Qed.

(** ** Fractional noise covariance *)

Lemma acf_diff h n : 0 < h -> acf h (Datatypes.S n) = 1 / 2 * (pow2h h (INR n + 2) - 2 * pow2h h (INR n + 1) + pow2h h (INR n)).
Proof.
  intros Hh. unfold acf. rewrite S_INR. replace (INR n + 1 + 1) with (INR n + 2) by lra. replace (INR n + 1 - 1) with (INR n) by lra. lra.
Qed.
Definition dsum (h : R) (n : nat) : R := rsum (map (fun i => rsum (map (fun j => acf_entry h i j) (seq 0 n))) (seq 0 n)).
(** The covariance matrix of n unit increments sums to n^{2h}: the variance of
    fractional Brownian motion at n. *)
Lemma pow2h_1 h : pow2h h 1 = 1.
Proof.
  unfold pow2h. destruct (Reqb_spec h 0); [reflexivity|]. destruct (Reqb_spec 1 0); [lra|]. unfold Rpower. rewrite ln_1, Rmult_0_r. apply exp_0.
Qed.
Lemma acf_tail h n : 0 < h -> rsum (map (fun i => acf h (n - i)) (seq 0 n)) = 1 / 2 * (pow2h h (INR n + 1) - pow2h h (INR n) - 1).
Proof.
  intros Hh. induction n as [|n IH].
  - simpl. rewrite Rplus_0_l, pow2h_1. unfold pow2h. destruct (Reqb_spec h 0); [lra|]. destruct (Reqb_spec 0 0); [|lra]. lra.
  - rewrite <- cons_seq. simpl map. cbn [rsum fold_right]. rewrite <- seq_shift, map_map.
    change (rsum (acf h (Datatypes.S n) :: map (fun x => acf h (Datatypes.S n - Datatypes.S x)) (seq 0 n)) = 1 / 2 * (pow2h h (INR (Datatypes.S n) + 1) - pow2h h (INR (Datatypes.S n)) - 1)) .
    change (acf h (Datatypes.S n) + rsum (map (fun x => acf h (n - x)) (seq 0 n)) = 1 / 2 * (pow2h h (INR (Datatypes.S n) + 1) - pow2h h (INR (Datatypes.S n)) - 1)).
    rewrite IH, acf_diff by exact Hh. rewrite S_INR. replace (INR n + 1 + 1) with (INR n + 2) by lra. lra.
Qed.
Theorem acf_total_variance : forall h n, 0 < h -> (0 < n)%nat -> dsum h n = Rpower (INR n) (2 * h).
Proof.
  intros h n Hh Hn.
  assert (G : forall n, dsum h n = pow2h h (INR n)).
  { clear n Hn. induction n as [|n IH].
    - simpl. unfold dsum, pow2h. simpl. destruct (Reqb_spec h 0); [lra|]. destruct (Reqb_spec 0 0); [reflexivity|lra].
    - unfold dsum. rewrite seq_S. simpl (0 + n)%nat. rewrite map_app, rsum_app.
      rewrite (rsum_map_ext _ (fun i => rsum (map (fun j => acf_entry h i j) (seq 0 n)) + acf h (n - i))).
      2:{ intros i Hi. apply in_seq in Hi. rewrite map_app, rsum_app. simpl. unfold acf_entry at 2. destruct (Nat.leb_spec n i); [lia|]. lra. }
      rewrite rsum_map_plus. fold (dsum h n). rewrite IH. simpl (map _ [n]). cbn [rsum fold_right]. rewrite map_app, rsum_app.
      rewrite (rsum_map_ext (fun j => acf_entry h n j) (fun i => acf h (n - i))).
      2:{ intros i Hi. apply in_seq in Hi. unfold acf_entry. destruct (Nat.leb_spec i n); [reflexivity|lia]. }
      rewrite acf_tail by exact Hh. simpl (map _ [n]). cbn [rsum fold_right].
      assert (E : acf_entry h n n = 1) by (unfold acf_entry; rewrite Nat.leb_refl, Nat.sub_diag; reflexivity).
      unfold rsum in *. simpl fold_right. rewrite E. rewrite S_INR. lra. }
  rewrite G. unfold pow2h. destruct (Reqb_spec h 0); [lra|]. destruct (Reqb_spec (INR n) 0); [|reflexivity].
  assert (0 < INR n) by (apply lt_0_INR; exact Hn). lra.
Qed.
(** Half: independent increments; one: fully correlated, so the covariance matrix
    is singular for n >= 2 although [new] accepts a Hurst index of one. *)
Theorem acf_special_cases : (forall i, (0 < i)%nat -> acf (1 / 2) i = 0) /\ (forall i, acf 1 i = 1).
Proof.
  assert (P : forall h x, 0 < h -> 0 < x -> pow2h h x = Rpower x (2 * h)).
  { intros h x Hh Hx. unfold pow2h. destruct (Reqb_spec h 0); [lra|]. destruct (Reqb_spec x 0); [lra|reflexivity]. }
  assert (Z0 : forall h, 0 < h -> pow2h h 0 = 0).
  { intros h Hh. unfold pow2h. destruct (Reqb_spec h 0); [lra|]. destruct (Reqb_spec 0 0); [reflexivity|lra]. }
  assert (H1 : forall x, 0 <= x -> pow2h (1 / 2) x = x).
  { intros x [Hx|<-]; [|apply Z0; lra]. rewrite P by lra. replace (2 * (1 / 2)) with 1 by field. apply Rpower_1. exact Hx. }
  assert (H2 : forall x, 0 <= x -> pow2h 1 x = x * x).
  { intros x [Hx|<-]; [|rewrite Z0; lra]. rewrite P by lra. replace (2 * 1) with (INR 2) by (simpl; lra). rewrite Rpower_pow by exact Hx. simpl. lra. }
  split.
  - intros [|i] Hi; [lia|]. pose proof (pos_INR i). rewrite acf_diff by lra. rewrite !H1 by lra. lra.
  - intros [|i]; [reflexivity|]. pose proof (pos_INR i). rewrite acf_diff by lra. rewrite !H2 by lra. lra.
Qed.
Theorem hurst_one_singular_refuted : forall n i, (0 < i)%nat -> (i < n)%nat ->
  forall j, acf_entry 1 i j = acf_entry 1 0 j.
Proof. intros. unfold acf_entry. rewrite !(proj2 acf_special_cases). reflexivity. Qed.

(** Finding: under the Euler scheme fractional increments are scaled twice: by
    (t_n/n)^h in the generator and by sqrt dt in the step. *)
Theorem euler_fractional_double_scaling_refuted : forall h x t z j,
  euler_step brownian_motion h (Some x) t z (Some j) = Ret (Some (x + sqrt h * z + j)) /\
  strang_step brownian_motion h (Some x) t z (Some j) = Ret (Some (x + z + j)).
Proof.
  intros. split; [rewrite (euler_step_real _ _ _ _ _ _ 0 1) by reflexivity|unfold strang_step; cbn]; f_equal; f_equal; field.
Qed.

(** ** Stochastic volatility *)

(** Finding: the second (volatility) process never influences the simulated
    asset paths. *)
Theorem stochvol_ignores_volatility_refuted : forall d1 s1 d2 s2 d2' s2' z x0 y0 y0' t0 tn n m,
  sv_euler_maruyama d1 s1 d2 s2 z x0 y0 t0 tn n m = sv_euler_maruyama d1 s1 d2' s2' z x0 y0' t0 tn n m.
Proof.
  intros. unfold sv_euler_maruyama. destruct (Rltb t0 tn); cbn [assertb]; [|reflexivity]. f_equal. f_equal. apply map_ext. intros i.
  generalize 0%nat as t. set (h := (tn - t0) / INR n). clearbody h. revert x0 y0 y0'.
  induction n as [|n IH]; intros; cbn [sv_loop map fst]; [reflexivity|]. f_equal. apply IH.
Qed.
Theorem stochvol_shape : forall d1 s1 d2 s2 z x0 y0 t0 tn n m, t0 < tn -> exists ts ps,
  sv_euler_maruyama d1 s1 d2 s2 z x0 y0 t0 tn n m = Ret (ts, ps) /\ length ts = Datatypes.S n /\ length ps = m /\
  forall i, (i < m)%nat -> length (nth i ps []) = Datatypes.S n /\ nth 0 (nth i ps []) 0 = x0.
Proof.
  intros. unfold sv_euler_maruyama. destruct (Rltb_spec t0 tn); [|lra]. cbn [assertb]. do 2 eexists. split; [reflexivity|].
  split; [rewrite map_length, seq_length; reflexivity|]. split; [rewrite map_length, seq_length; reflexivity|].
  intros i Hi. set (F := fun i => map fst _). rewrite (nth_indep _ [] (F 0%nat)) by (rewrite map_length, seq_length; exact Hi).
  rewrite map_nth, seq_nth by exact Hi. unfold F. rewrite map_length. split.
  - clear F. set (h := (tn - t0) / INR n). clearbody h. generalize (z (0 + i)%nat) as w. intros w. generalize 0%nat as t. revert x0 y0.
    induction n as [|n IH]; intros; [reflexivity|]. simpl. f_equal. apply IH.
  - destruct n; reflexivity.
Qed.

(** The grid and the recursion of the returned paths. *)
Theorem stochvol_euler : forall d1 s1 d2 s2 z x0 y0 t0 tn n m ts ps, sv_euler_maruyama d1 s1 d2 s2 z x0 y0 t0 tn n m = Ret (ts, ps) ->
  t0 < tn /\ (forall k, (k <= n)%nat -> nth k ts 0 = t0 + (tn - t0) * INR k / INR n) /\
  forall i k, (i < m)%nat -> (k < n)%nat -> let x := nth k (nth i ps []) 0 in let t := nth k ts 0 in
    nth (Datatypes.S k) (nth i ps []) 0 = x + d1 x t * ((tn - t0) / INR n) + s1 x t * (sqrt ((tn - t0) / INR n) * z i k).
Proof.
  intros d1 s1 d2 s2 z x0 y0 t0 tn n m ts ps H. unfold sv_euler_maruyama in H. destruct (Rltb_spec t0 tn) as [L|L]; [|discriminate]. cbn [assertb] in H. injection H as <- <-. split; [exact L|].
  assert (TS : forall k, (k <= n)%nat -> nth k (map (fun t => t0 + (tn - t0) / INR n * INR t) (seq 0 (Datatypes.S n))) 0 = t0 + (tn - t0) / INR n * INR k).
  { intros k K. set (f := fun t => t0 + (tn - t0) / INR n * INR t). rewrite (nth_indep _ 0 (f 0%nat)) by (rewrite map_length, seq_length; lia). rewrite map_nth, seq_nth by lia. reflexivity. }
  split; [intros k K; rewrite TS by exact K; unfold Rdiv; ring|].
  intros i k Hi Hk. cbv zeta. rewrite TS by lia. set (F := fun i => map fst _). rewrite (nth_indep _ [] (F 0%nat)) by (rewrite map_length, seq_length; exact Hi). rewrite map_nth, seq_nth by exact Hi. unfold F. cbn [Nat.add]. clear F TS.
  set (h := (tn - t0) / INR n). clearbody h. generalize (z i) as w. intros w.
  assert (G : forall k n t x y, (k < n)%nat -> let l := map fst (sv_loop d1 s1 d2 s2 t0 h w t n x y) in
    nth (Datatypes.S k) l 0 = nth k l 0 + d1 (nth k l 0) (t0 + h * INR (t + k)) * h + s1 (nth k l 0) (t0 + h * INR (t + k)) * (sqrt h * w (t + k)%nat)).
  { clear. induction k as [|k IH]; intros [|n] t x y K; try lia; cbv zeta; cbn [sv_loop map fst nth].
    - rewrite Nat.add_0_r. destruct n; cbn [sv_loop map fst nth]; ring.
    - rewrite (IH n (Datatypes.S t)) by lia. replace (Datatypes.S t + k)%nat with (t + Datatypes.S k)%nat by lia. reflexivity. }
  apply (G k n 0%nat x0 y0 Hk).
Qed.
Print Assumptions stochvol_euler.
Example stochvol_euler_case : exists ts ps, sv_euler_maruyama (fun x _ => x) (fun x _ => x) (fun _ _ => 0) (fun _ _ => 0) (fun _ _ => 1) 100 1 0 1 4 2 = Ret (ts, ps).
Proof. unfold sv_euler_maruyama. destruct (Rltb_spec 0 1); [|lra]. cbn [assertb]. eexists _, _. reflexivity. Qed.

(** ** Non-vacuity *)
Definition ex_cfg : config := Config 100 0 1 2 EulerMaruyama 2 true (Some 7%Z).
Definition ex_env : env := Env (fun s k => IZR s + INR k) 42%Z (fun _ _ => 1) (fun _ _ t => INR t).
Definition ex_sched : list nat := [0; 1; 1; 0; 0]%nat.
Example ex_complete : complete ex_cfg ex_sched.
Proof. intros [|[|i]] H; simpl in H |- *; lia. Qed.
Example ex_runs : exists ts ps, generate ex_env (abm (fun _ => 1) (fun t => 1 + t * t)) ex_cfg ex_sched = Ret (ts, ps) /\ length ps = 2%nat.
Proof.
  unfold generate, simulate. cbn [t_0 t_n ex_cfg]. destruct (Rltb_spec 0 1); [|lra]. cbn [assertb bind seed ex_cfg parallel].
  rewrite parallel_equals_serial by apply ex_complete.
  unfold serial_paths. cbn [m_paths ex_cfg seq map collect].
  destruct (euler_abm_closed_form ex_env (fun _ => 1) (fun t => 1 + t * t) ex_cfg 7%Z 0%nat) as (a & -> & _); [reflexivity|intros; nra|].
  destruct (euler_abm_closed_form ex_env (fun _ => 1) (fun t => 1 + t * t) ex_cfg 7%Z 1%nat) as (b & -> & _); [reflexivity|intros; nra|].
  cbn. eexists _, _. split; [reflexivity|]. reflexivity.
Qed.
Example ex_not_complete : ~ complete ex_cfg [0; 0; 1]%nat.
Proof. intros H. specialize (H 1%nat). simpl in H. lia. Qed.
Example ex_milstein : cfg_scheme (Config 100 0 1 2 Milstein 2 true (Some 7%Z)) <> EulerMaruyama.
Proof. discriminate. Qed.
Example ex_fractional : exists ts ps, fractional_cholesky ex_env (fun _ _ => Ret (fun a b => if Nat.eqb a b then 1 else 0)) (fun _ _ => 0) brownian_motion (1 / 2) ex_cfg ex_sched = Ret (ts, ps).
Proof.
  unfold fractional_cholesky, simulate. cbn [t_0 t_n ex_cfg]. destruct (Rltb_spec 0 1); [|lra]. cbn [assertb bind seed ex_cfg parallel].
  rewrite parallel_equals_serial by apply ex_complete. cbn. eexists _, _. reflexivity.
Qed.

Print Assumptions times_spec.
Print Assumptions times_zero_steps_refuted.
Print Assumptions parallel_equals_serial.
Print Assumptions simulate_shape.
Print Assumptions euler_step_real.
Print Assumptions seeded_reproducible.
Print Assumptions more_paths_extend.
Print Assumptions neighbouring_seeds_overlap_refuted.
Print Assumptions seeded_fractional_paths_identical_refuted.
Print Assumptions euler_abm_closed_form.
Print Assumptions euler_gbm_closed_form.
Print Assumptions euler_ou_recurrence.
Print Assumptions milstein_strang_brownian_refuted.
Print Assumptions milstein_ignores_horizon_refuted.
Print Assumptions milstein_correction_refuted.
Print Assumptions schemes_agree_without_diffusion.
Print Assumptions negative_volatility_panics.
Print Assumptions cir_negative_is_nan.
Print Assumptions nan_is_absorbing.
Print Assumptions cir_can_leave_domain_refuted.
Print Assumptions merton_jump_term.
Print Assumptions merton_jump_count_ignored_refuted.
Print Assumptions merton_needs_steps_and_rate.
Print Assumptions bdt_diff_exact.
Print Assumptions bdt_constant_sigma.
Print Assumptions gbb_drift_pull.
Print Assumptions acf_total_variance.
Print Assumptions acf_special_cases.
Print Assumptions hurst_one_singular_refuted.
Print Assumptions euler_fractional_double_scaling_refuted.
Print Assumptions stochvol_ignores_volatility_refuted.
Print Assumptions stochvol_shape.
Print Assumptions hull_white_is_ou.
Print Assumptions ho_lee_is_abm.
Print Assumptions ho_lee_negative_theta_panics.
Print Assumptions cev_one_is_gbm.
Print Assumptions cev_special_cases.
Print Assumptions cir_step_real.
