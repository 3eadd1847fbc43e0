(** C104: Euler-Maruyama paths computed with binary64 arithmetic. *)
From Coq Require Import ZArith Reals Lra Lia List Bool Psatz.
From Flocq Require Import Core.Core IEEE754.BinarySingleNaN Relative.
From Verif Require SimModel.
From Verif Require Import Res F64Model F64Base F64Sum F64Order F64Quad F64SimModel.
Import ListNotations.
Open Scope R_scope.

(** ** Values that are not finite stay so *)
Lemma fadd_left_fin x y : fin (fadd x y) -> fin x. Proof. intros H. apply (fadd_fin x y H). Qed.
Lemma fadd_nan y : fadd nan y = nan. Proof. destruct y; reflexivity. Qed.
Lemma step64_fin P dt sc x t z x' : euler_step64 P dt sc x t z = Ret x' -> fin x' -> fin x.
Proof.
  unfold euler_step64. destruct (drift64 P x t) as [mu| |]; try discriminate. destruct (diffusion64 P x t) as [sg| |]; try discriminate. cbn. intros [= <-] H.
  apply fadd_left_fin, fadd_left_fin, fadd_left_fin in H. exact H.
Qed.
Lemma step64_nan P dt sc t z x' : euler_step64 P dt sc nan t z = Ret x' -> x' = nan.
Proof.
  unfold euler_step64. destruct (drift64 P nan t) as [mu| |]; try discriminate. destruct (diffusion64 P nan t) as [sg| |]; try discriminate. cbn. intros [= <-].
  rewrite !fadd_nan. reflexivity.
Qed.
(** a path as a sequence of steps *)
Lemma path_loop64_spec P t_0 dt sc z k : forall t x l, path_loop64 P t_0 dt sc z t k x = Ret l ->
  length l = S k /\ nth_error l 0 = Some x /\
  forall i, (i < k)%nat -> exists y y', nth_error l i = Some y /\ nth_error l (S i) = Some y' /\ euler_step64 P dt sc y (time64 t_0 dt (t + i)) (z (t + i)%nat) = Ret y'.
Proof.
  induction k as [|k IH]; intros t x l H; cbn in H.
  - injection H as <-. split; [reflexivity|]. split; [reflexivity|]. intros i Hi. lia.
  - destruct (euler_step64 P dt sc x (time64 t_0 dt t) (z t)) as [x'| |] eqn:E; try discriminate. cbn in H.
    destruct (path_loop64 P t_0 dt sc z (S t) k x') as [r| |] eqn:E'; try discriminate. cbn in H. injection H as <-.
    destruct (IH _ _ _ E') as (L & H0 & HS). split; [cbn; lia|]. split; [reflexivity|]. intros [|i] Hi.
    + exists x, x'. rewrite Nat.add_0_r. split; [reflexivity|]. split; [exact H0|exact E].
    + destruct (HS i ltac:(lia)) as (y & y' & A & B & C). exists y, y'. split; [exact A|]. split; [exact B|]. replace (t + S i)%nat with (S t + i)%nat by lia. exact C.
Qed.
(** A path has one value per time, starts at the initial value, and never comes back from an
    infinity or a NaN; after a NaN every value is NaN.  This holds for every process. *)
Theorem euler64_paths : forall P x_0 t_0 t_n n z ts path, euler64 P x_0 t_0 t_n n z = Ret (ts, path) ->
  length path = S n /\ length ts = S n /\ nth_error path 0 = Some x_0 /\
  (forall i j x y, (i <= j)%nat -> nth_error path i = Some x -> nth_error path j = Some y -> (fin y -> fin x) /\ (x = nan -> y = nan)).
Proof.
  intros P x_0 t_0 t_n n z ts path H. unfold euler64 in H. destruct (flt t_0 t_n); [|discriminate]. cbn [assertb] in H. cbv zeta in H.
  destruct (path_loop64 P t_0 (dt64 t_0 t_n n) (fsqrt (dt64 t_0 t_n n)) z 0 n x_0) as [l| |] eqn:E; try discriminate. cbn [bind] in H. injection H as <- <-.
  destruct (path_loop64_spec _ _ _ _ _ _ _ _ _ E) as (L & H0 & HS). split; [exact L|]. split; [unfold times64; rewrite map_length, seq_length; reflexivity|]. split; [exact H0|].
  intros i j x y Hij Hx Hy. revert y Hy. induction Hij as [|j Hij IH]; intros y Hy.
  - rewrite Hx in Hy. injection Hy as <-. tauto.
  - assert (J : (j < n)%nat). { assert (S j < length l)%nat by (apply nth_error_Some; congruence). lia. }
    destruct (HS j J) as (w & w' & A & B & C). rewrite B in Hy. injection Hy as <-. destruct (IH w A) as [I1 I2]. split.
    + intros F. apply I1. exact (step64_fin _ _ _ _ _ _ _ C F).
    + intros N. rewrite (I2 N) in C. exact (step64_nan _ _ _ _ _ _ C).
Qed.
Print Assumptions euler64_paths.
Example euler64_paths_meets : match euler64 (cir64 (fun _ => one) (fun _ => lit 4 0) (fun _ => one)) one zero one 3 (fun i => if Nat.eqb i 0 then lit (-3) 0 else one) with
  | Ret (_, [a; b; c; d]) => feq a one && flt b zero && is_nan c && is_nan d | _ => false end = true.
Proof. vm_compute. reflexivity. Qed.

(** ** The times *)
Lemma dt64_fin t_0 t_n n : small n -> (1 <= n)%nat -> flt t_0 t_n = true -> fin (dt64 t_0 t_n n) ->
  fin t_0 /\ fin t_n /\ val (dt64 t_0 t_n n) = rnd (rnd (val t_n - val t_0) / INR n) /\ val t_0 < val t_n /\ 0 <= val (dt64 t_0 t_n n).
Proof.
  intros Sm N1 L F. unfold dt64 in *. destruct (usize_R n Sm) as [_ N]. assert (N0 : 1 <= INR n) by (apply (le_INR 1); exact N1).
  destruct (fdiv_fin _ _ ltac:(rewrite N; lra) F) as (F1 & V & _). destruct (fsub_fin _ _ F1) as (B & A & V1 & _). apply (flt_R _ _ A B) in L.
  split; [exact A|]. split; [exact B|]. rewrite V, V1, N. split; [reflexivity|]. split; [exact L|].
  rewrite <- rnd_0. apply rnd_le. apply Rmult_le_pos; [rewrite <- rnd_0; apply rnd_le; lra|left; apply Rinv_0_lt_compat; lra].
Qed.
(** with a finite step the first time is the start, the times never decrease, and time i is close
    to the exact one *)
Theorem times64_spec : forall t_0 t_n n, small n -> (1 <= n)%nat -> flt t_0 t_n = true -> fin (dt64 t_0 t_n n) ->
  forall i x, nth_error (times64 t_0 t_n n) i = Some x -> fin x ->
  (i = 0%nat -> val x = val t_0) /\ val t_0 <= val x /\
  (forall j y, (i <= j)%nat -> nth_error (times64 t_0 t_n n) j = Some y -> fin y -> val x <= val y) /\
  Rabs (val x - (val t_0 + INR i * ((val t_n - val t_0) / INR n))) <= ((1 + u) ^ 4 - 1) * (Rabs (val t_0) + (val t_n - val t_0)) + 2 * (INR n + 1) * eta.
Proof.
  intros t_0 t_n n Sm N1 L F i x Hx Fx. destruct (dt64_fin t_0 t_n n Sm N1 L F) as (A & B & V & LT & D0).
  assert (IDX : forall j y, nth_error (times64 t_0 t_n n) j = Some y -> (j <= n)%nat /\ y = time64 t_0 (dt64 t_0 t_n n) j).
  { intros j y H. unfold times64 in H. assert (J : (j < S n)%nat) by (assert (Q : nth_error (map (time64 t_0 (dt64 t_0 t_n n)) (seq 0 (S n))) j <> None) by congruence; apply nth_error_Some in Q; rewrite map_length, seq_length in Q; exact Q).
    split; [lia|]. rewrite nth_error_map in H. rewrite (nth_error_nth' _ 0%nat) in H by (rewrite seq_length; exact J). cbn [option_map] in H. rewrite seq_nth in H by exact J. injection H as H. symmetry. exact H. }
  set (d := dt64 t_0 t_n n) in *.
  assert (TV : forall j, (j <= n)%nat -> fin (time64 t_0 d j) -> val (time64 t_0 d j) = rnd (val t_0 + rnd (val d * INR j))).
  { intros j J Fj. unfold time64 in *. destruct (fadd_fin _ _ Fj) as (_ & Fm & V1 & _). destruct (fmul_fin _ _ Fm) as (_ & _ & V2 & _). rewrite V1, V2. assert (SJ : small j) by (unfold small in *; lia). rewrite (proj2 (usize_R j SJ)). reflexivity. }
  destruct (IDX i x Hx) as [I ->]. pose proof (TV i I Fx) as VX. rewrite VX.
  assert (I0 : 0 <= INR i) by apply pos_INR. assert (IN : INR i <= INR n) by (apply le_INR; exact I). assert (N0 : 1 <= INR n) by (apply (le_INR 1); exact N1).
  assert (P0 : 0 <= rnd (val d * INR i)) by (rewrite <- rnd_0; apply rnd_le; nra).
  split; [|split; [|split]].
  - intros ->. change (INR 0) with 0. rewrite Rmult_0_r, rnd_0, Rplus_0_r. apply rnd_id, val_fmt.
  - apply rnd_ge; [apply val_fmt|lra].
  - intros j y Hij Hy Fy. destruct (IDX j y Hy) as [J ->]. rewrite (TV j J Fy). apply rnd_le. apply Rplus_le_compat_l. apply rnd_le. apply Rmult_le_compat_l; [exact D0|apply le_INR; exact Hij].
  - set (w := val t_n - val t_0) in *. assert (W0 : 0 < w) by (unfold w; lra).
    destruct (rnd_minus_err (val t_n) (val t_0) (val_fmt _) (val_fmt _)) as (e1 & E1 & R1). fold w in R1. fold w in V. rewrite R1 in V.
    destruct (rnd_err (w * (1 + e1) / INR n)) as (e2 & h2 & E2 & H2 & R2). rewrite R2 in V.
    destruct (rnd_err (val d * INR i)) as (e3 & h3 & E3 & H3 & R3). destruct (rnd_plus_err (val t_0) (rnd (val d * INR i)) (val_fmt _) (rnd_fmt _)) as (e4 & E4 & R4). rewrite R4, R3, V.
    assert (RI : 0 <= INR i / INR n <= 1). { split; [apply Rmult_le_pos; [exact I0|left; apply Rinv_0_lt_compat; lra]|]. apply Rmult_le_reg_r with (INR n); [lra|]. unfold Rdiv. rewrite Rmult_assoc, Rinv_l by lra. lra. }
    replace (val t_0 + INR i * (w / INR n)) with (val t_0 + w * (INR i / INR n)) by (field; lra).
    replace ((val t_0 + ((w * (1 + e1) / INR n * (1 + e2) + h2) * INR i * (1 + e3) + h3)) * (1 + e4) - (val t_0 + w * (INR i / INR n)))
      with (val t_0 * e4 + w * (INR i / INR n) * ((1 + e1) * (1 + e2) * (1 + e3) * (1 + e4) - 1) + (h2 * INR i * (1 + e3) + h3) * (1 + e4)) by (field; lra).
    pose proof u_pos as U. pose proof u_tiny as UT. pose proof eta_pos as H0.
    assert (P4 : Rabs ((1 + e1) * (1 + e2) * (1 + e3) * (1 + e4) - 1) <= (1 + u) ^ 4 - 1).
    { assert (G : forall a b g, 1 <= g -> Rabs (a - 1) <= g - 1 -> Rabs b <= u -> Rabs (a * (1 + b) - 1) <= g * (1 + u) - 1).
      { intros a b g G1 GA GB. replace (a * (1 + b) - 1) with ((a - 1) * (1 + b) + b) by ring. eapply Rle_trans; [apply Rabs_triang|]. rewrite Rabs_mult. assert (Rabs (1 + b) <= 1 + u) by (eapply Rle_trans; [apply Rabs_triang|rewrite Rabs_R1; lra]). pose proof (Rabs_pos (a - 1)). pose proof (Rabs_pos (1 + b)). nra. }
      replace ((1 + u) ^ 4 - 1) with ((1 + u) * (1 + u) * (1 + u) * (1 + u) - 1) by ring. apply G; [nra| |exact E4]. apply G; [nra| |exact E3]. apply G; [lra| |exact E2]. replace (1 + e1 - 1) with e1 by ring. lra. }
    assert (T1 : Rabs (val t_0 * e4) <= ((1 + u) ^ 4 - 1) * Rabs (val t_0)). { rewrite Rabs_mult. assert (u <= (1 + u) ^ 4 - 1) by nra. pose proof (Rabs_pos (val t_0)). nra. }
    assert (T2 : Rabs (w * (INR i / INR n) * ((1 + e1) * (1 + e2) * (1 + e3) * (1 + e4) - 1)) <= ((1 + u) ^ 4 - 1) * w).
    { rewrite !Rabs_mult. rewrite (Rabs_pos_eq w) by lra. rewrite (Rabs_pos_eq (INR i / INR n)) by apply RI. rewrite (Rmult_comm _ w). assert (0 <= w * (INR i / INR n) <= w) by (split; [apply Rmult_le_pos; lra|nra]). pose proof (Rabs_pos ((1 + e1) * (1 + e2) * (1 + e3) * (1 + e4) - 1)).
      eapply Rle_trans; [apply Rmult_le_compat; [apply H|assumption|apply H|exact P4]|]. lra. }
    assert (T3 : Rabs ((h2 * INR i * (1 + e3) + h3) * (1 + e4)) <= 2 * (INR n + 1) * eta).
    { rewrite Rabs_mult. assert (A3 : Rabs (1 + e3) <= 1 + u) by (eapply Rle_trans; [apply Rabs_triang|rewrite Rabs_R1; lra]). assert (A4 : Rabs (1 + e4) <= 1 + u) by (eapply Rle_trans; [apply Rabs_triang|rewrite Rabs_R1; lra]).
      assert (Q : Rabs (h2 * INR i * (1 + e3) + h3) <= (1 + u) * (INR n + 1) * eta).
      { eapply Rle_trans; [apply Rabs_triang|]. rewrite !Rabs_mult, (Rabs_pos_eq (INR i)) by exact I0. assert (Rabs h2 * INR i <= eta * INR n) by (apply Rmult_le_compat; try apply Rabs_pos; assumption). assert (Rabs h2 * INR i * Rabs (1 + e3) <= eta * INR n * (1 + u)) by (apply Rmult_le_compat; try assumption; [apply Rmult_le_pos; [apply Rabs_pos|exact I0]|apply Rabs_pos]). nra. }
      apply Rle_trans with ((1 + u) * (INR n + 1) * eta * (1 + u)); [apply Rmult_le_compat; try apply Rabs_pos; assumption|]. replace ((1 + u) * (INR n + 1) * eta * (1 + u)) with ((1 + u) * (1 + u) * ((INR n + 1) * eta)) by ring. rewrite (Rmult_assoc 2). apply Rmult_le_compat_r; [apply Rmult_le_pos; lra|]. nra. }
    eapply Rle_trans; [apply Rabs_triang|]. eapply Rle_trans; [apply Rplus_le_compat_r, Rabs_triang|]. lra.
Qed.
Print Assumptions times64_spec.
Example times64_meets : small 10 /\ flt one two = true /\ fin (dt64 one two 10) /\ List.Forall fin (times64 one two 10).
Proof. split; [unfold small; lia|]. split; [reflexivity|]. split; [vm_compute; reflexivity|]. repeat (apply Forall_cons; [vm_compute; reflexivity|]). apply Forall_nil. Qed.
(** The last time may miss the end of the interval on either side; two times may coincide; when the
    length of the interval overflows, or there are no steps, the first time is NaN. *)
Definition max_f64 : f64 := lit (2 ^ 53 - 1) 971.
Theorem times64_end_refuted :
  (exists t_0 t_n n x, flt t_0 t_n = true /\ nth_error (times64 t_0 t_n n) n = Some x /\ flt t_n x = true) /\
  (exists t_0 t_n n x, flt t_0 t_n = true /\ nth_error (times64 t_0 t_n n) n = Some x /\ flt x t_n = true) /\
  (exists t_0 t_n n x y, flt t_0 t_n = true /\ nth_error (times64 t_0 t_n n) 0 = Some x /\ nth_error (times64 t_0 t_n n) 1 = Some y /\ feq x y = true) /\
  (exists t_0 t_n, fin t_0 /\ fin t_n /\ flt t_0 t_n = true /\ forall n, (1 <= n)%nat -> small n -> nth_error (times64 t_0 t_n n) 0 = Some nan) /\
  (forall t_0 t_n, fin t_0 -> fin t_n -> flt t_0 t_n = true -> nth_error (times64 t_0 t_n 0) 0 = Some nan).
Proof.
  assert (INF : forall t_0, fin t_0 -> time64 t_0 pinf 0 = nan) by (intros t_0 _; unfold time64; change (fmul pinf (of_usize 0)) with nan; destruct t_0; reflexivity).
  split; [|split; [|split; [|split]]].
  - exists zero, (fdiv one (lit 10 0)), 11%nat. eexists. split; [vm_compute; reflexivity|]. split; [reflexivity|vm_compute; reflexivity].
  - exists zero, one, 49%nat. eexists. split; [vm_compute; reflexivity|]. split; [reflexivity|vm_compute; reflexivity].
  - exists one, (fadd one (lit 1 (-52))), 10%nat. eexists. eexists. split; [vm_compute; reflexivity|]. split; [reflexivity|]. split; [reflexivity|vm_compute; reflexivity].
  - exists (Bopp max_f64), max_f64. split; [vm_compute; reflexivity|]. split; [vm_compute; reflexivity|]. split; [vm_compute; reflexivity|]. intros n N1 Sm.
    unfold times64. cbn [seq map nth_error]. f_equal. assert (D : dt64 (Bopp max_f64) max_f64 n = pinf); [|rewrite D; apply INF; vm_compute; reflexivity].
    unfold dt64. assert (E : fsub max_f64 (Bopp max_f64) = pinf) by (apply same; vm_compute; reflexivity). rewrite E. destruct (usize_sign n) as (NN & SG & _). destruct (usize_R n Sm) as [FN VN].
    assert (P : 0 < val (of_usize n)) by (rewrite VN; apply lt_0_INR; lia). destruct (of_usize n) as [s|s| |s m e Hb]; cbn in SG; try discriminate; subst; try reflexivity; exfalso; cbn in P; lra.
  - intros t_0 t_n A B L. unfold times64. cbn [seq map nth_error]. f_equal. apply (flt_R _ _ A B) in L. unfold dt64.
    assert (N0 : of_usize 0 = zero) by (apply same; vm_compute; reflexivity). rewrite N0.
    assert (G : exists s, fsub t_n t_0 = B754_infinity s \/ (fin (fsub t_n t_0) /\ val (fsub t_n t_0) <> 0)).
    { destruct (is_finite (fsub t_n t_0)) eqn:Q.
      - exists true. right. split; [exact Q|]. destruct (fsub_fin _ _ Q) as (_ & _ & V & _). rewrite V. destruct (rnd_minus_err (val t_n) (val t_0) (val_fmt _) (val_fmt _)) as (e & E & R). rewrite R. intros Z. apply Rmult_integral in Z. pose proof u_small. apply Rabs_le_inv in E. lra.
      - pose proof (Bminus_correct 53 1024 p53 pe53 mode_NE t_n t_0 B A) as C. destruct (Rlt_bool _ _) in C.
        + destruct C as (_ & C & _). unfold fsub in Q. congruence.
        + destruct C as [C _]. exists (Bsign t_n). left. apply same. exact C. }
    destruct G as [s [G|[G1 G2]]].
    + rewrite G. replace (fdiv (B754_infinity s : f64) zero) with (B754_infinity s : f64) by (destruct s; reflexivity). unfold time64. rewrite N0. destruct s; destruct t_0; reflexivity.
    + unfold time64. rewrite N0. destruct (fsub t_n t_0) as [q|q| |q m e Hb]; try discriminate; [elim G2; reflexivity|]. destruct q; destruct t_0; reflexivity.
Qed.
Print Assumptions times64_end_refuted.

(** ** Error analysis *)
(** t approximates T: g bounds the product of the relative errors, m majorises T, w is the
    accumulated absolute error *)
Definition near (g m w t T : R) : Prop := Rabs (t - T) <= (g - 1) * m + w /\ Rabs T <= m.
Lemma one_u a : Rabs a <= u -> Rabs (1 + a) <= 1 + u.
Proof. intros A. eapply Rle_trans; [apply Rabs_triang|rewrite Rabs_R1; lra]. Qed.
Lemma near_rel g m w t T e : 1 <= g -> 0 <= w -> Rabs e <= u -> near g m w t T -> near (g * (1 + u)) m (w * (1 + u)) (t * (1 + e)) T.
Proof.
  intros G W E [H M]. split; [|exact M]. replace (t * (1 + e) - T) with ((t - T) * (1 + e) + T * e) by ring. eapply Rle_trans; [apply Rabs_triang|]. rewrite !Rabs_mult.
  pose proof (one_u e E). pose proof (Rabs_pos (t - T)). pose proof (Rabs_pos T). pose proof (Rabs_pos e). pose proof (Rabs_pos (1 + e)).
  assert (Rabs (t - T) * Rabs (1 + e) <= ((g - 1) * m + w) * (1 + u)) by (apply Rmult_le_compat; assumption). assert (Rabs T * Rabs e <= m * u) by (apply Rmult_le_compat; assumption). lra.
Qed.
Lemma near_abs_err g m w t T h : near g m w t T -> Rabs h <= eta -> near g m (w + eta) (t + h) T.
Proof. intros [H M] E. split; [|exact M]. replace (t + h - T) with ((t - T) + h) by ring. eapply Rle_trans; [apply Rabs_triang|]. lra. Qed.
Lemma near_rnd g m w t T : 1 <= g -> 0 <= w -> near g m w t T -> near (g * (1 + u)) m (w * (1 + u) + eta) (rnd t) T.
Proof. intros G W H. destruct (rnd_err t) as (e & h & E & Hh & ->). apply near_abs_err; [|exact Hh]. apply near_rel; assumption. Qed.
Lemma near_add g m w t T m' w' t' T' : near g m w t T -> near g m' w' t' T' -> near g (m + m') (w + w') (t + t') (T + T').
Proof. intros [H M] [H' M']. split; [replace (t + t' - (T + T')) with ((t - T) + (t' - T')) by ring|]; (eapply Rle_trans; [apply Rabs_triang|]); lra. Qed.
Lemma near_mul g m w t T c : near g m w t T -> near g (m * Rabs c) (w * Rabs c) (t * c) (T * c).
Proof.
  intros [H M]. pose proof (Rabs_pos c). split; [|rewrite Rabs_mult; apply Rmult_le_compat_r; assumption]. rewrite <- Rmult_minus_distr_r, Rabs_mult. replace ((g - 1) * (m * Rabs c) + w * Rabs c) with (((g - 1) * m + w) * Rabs c) by ring. apply Rmult_le_compat_r; assumption.
Qed.
Lemma near_weak g g' m w w' t T : g <= g' -> w <= w' -> near g m w t T -> near g' m w' t T.
Proof. intros G W [H M]. split; [|exact M]. pose proof (Rabs_pos T). assert ((g - 1) * m <= (g' - 1) * m) by (apply Rmult_le_compat_r; lra). lra. Qed.
Lemma near_self x : near 1 (Rabs x) 0 x x.
Proof. split; [rewrite Rminus_eq_0, Rabs_R0; lra|lra]. Qed.
Lemma sqrt_rel (d : f64) : fin (fsqrt d) -> 0 <= val d -> exists e, Rabs e <= u /\ val (fsqrt d) = sqrt (val d) * (1 + e).
Proof.
  intros _ D. destruct (Bsqrt_correct 53 1024 p53 pe53 mode_NE d) as (V & _ & _). change (val (fsqrt d) = rnd (sqrt (val d))) in V. destruct D as [D|D].
  2:{ exists 0. rewrite Rabs_R0. split; [pose proof u_pos; lra|]. rewrite V, <- D, sqrt_0, rnd_0. ring. }
  assert (L : bpow radix2 (-1074) <= val d).
  { pose proof (val_fmt d) as M. apply FLT_format_generic in M; [|reflexivity]. destruct M as [f E _ X]. rewrite E in D |- *. unfold F2R in *. assert (Q : (0 < Fnum f)%Z) by (apply lt_IZR; apply Rmult_lt_reg_r with (bpow radix2 (Fexp f)); [apply bpow_gt_0|lra]).
    apply Rle_trans with (bpow radix2 (Fexp f)); [apply bpow_le; exact X|]. rewrite <- (Rmult_1_l (bpow radix2 (Fexp f))) at 1. apply Rmult_le_compat_r; [apply bpow_ge_0|]. apply (IZR_le 1). lia. }
  assert (LS : bpow radix2 (-537) <= sqrt (val d)). { rewrite <- (sqrt_Rsqr (bpow radix2 (-537))) by apply bpow_ge_0. apply sqrt_le_1_alt. unfold Rsqr. rewrite <- bpow_plus. exact L. }
  destruct (relative_error_N_FLT_ex radix2 (-1074) 53 eq_refl (fun z => negb (Z.even z)) (sqrt (val d))) as (e & E & R).
  - rewrite Rabs_pos_eq by apply sqrt_pos. eapply Rle_trans; [|exact LS]. apply bpow_le. cbn. lia.
  - exists e. split; [|rewrite V; exact R]. eapply Rle_trans; [exact E|]. right. rewrite <- u_ro_u. reflexivity.
Qed.

(** ** Affine processes *)
(** [P] computes, up to two relative roundings and an underflow, the drift and the diffusion of the
    exact process [p], and these are affine in the state *)
Definition affine64 (P : process64) (p : SimModel.process) (a0 a1 b0 b1 : R -> R) : Prop := forall t, fin t ->
  (forall x d, fin x -> drift64 P x t = Ret d -> fin d ->
     (forall y, SimModel.drift p (Some y) (val t) = Ret (Some (a0 (val t) + a1 (val t) * y))) /\
     Rabs (val d - (a0 (val t) + a1 (val t) * val x)) <= ((1 + u) ^ 2 - 1) * (Rabs (a0 (val t)) + Rabs (a1 (val t)) * Rabs (val x)) + 2 * eta) /\
  (forall x s, fin x -> diffusion64 P x t = Ret s -> fin s ->
     (forall y, SimModel.diffusion p (Some y) (val t) = Ret (Some (b0 (val t) + b1 (val t) * y))) /\
     Rabs (val s - (b0 (val t) + b1 (val t) * val x)) <= ((1 + u) ^ 2 - 1) * (Rabs (b0 (val t)) + Rabs (b1 (val t)) * Rabs (val x)) + 2 * eta).
(** a model parameter and its exact counterpart *)
Definition same_parameter (f : f64 -> f64) (g : R -> R) : Prop := forall t, fin t -> val (f t) = g (val t).
Lemma checked64_ret s v r : checked64 s v = Ret r -> fin s -> r = v /\ 0 <= val s.
Proof. unfold checked64. destruct (fle zero s) eqn:E; [|discriminate]. cbn. intros [= <-] S. split; [reflexivity|]. apply (fle_R zero s eq_refl S) in E. exact E. Qed.
Lemma checked_ok s v : 0 <= s -> SimModel.checked s v = Ret v.
Proof. intros H. unfold SimModel.checked, InterpModel.Rltb. destruct (Rlt_dec s 0); [lra|reflexivity]. Qed.
Lemma affine_const v c : v = c -> Rabs (v - (c + 0 * 0)) <= 0. Proof. intros ->. rewrite Rmult_0_l, Rplus_0_r, Rminus_eq_0, Rabs_R0. lra. Qed.
Lemma slack m : 0 <= m -> 0 <= ((1 + u) ^ 2 - 1) * m + 2 * eta.
Proof. intros M. pose proof u_pos. pose proof eta_pos. assert (0 <= (1 + u) ^ 2 - 1) by nra. nra. Qed.
Lemma const_ok v x : Rabs (v - (v + 0 * x)) <= ((1 + u) ^ 2 - 1) * (Rabs v + Rabs 0 * Rabs x) + 2 * eta.
Proof. replace (v - (v + 0 * x)) with 0 by ring. rewrite Rabs_R0. apply slack. pose proof (Rabs_pos v). lra. Qed.
Lemma prod_ok c x : Rabs (rnd (c * x) - (0 + c * x)) <= ((1 + u) ^ 2 - 1) * (Rabs 0 + Rabs c * Rabs x) + 2 * eta.
Proof.
  destruct (rnd_err (c * x)) as (e & h & E & H & ->). replace (c * x * (1 + e) + h - (0 + c * x)) with (c * x * e + h) by ring. eapply Rle_trans; [apply Rabs_triang|]. rewrite !Rabs_mult, Rabs_R0, Rplus_0_l.
  pose proof u_pos. pose proof eta_pos. assert (0 <= Rabs c * Rabs x) by (apply Rmult_le_pos; apply Rabs_pos). assert (u <= (1 + u) ^ 2 - 1) by nra. pose proof (Rabs_pos e). nra.
Qed.
Theorem affine64_bm : affine64 bm64 SimModel.brownian_motion (fun _ => 0) (fun _ => 0) (fun _ => 1) (fun _ => 0).
Proof.
  intros t T. split; intros x d X [= <-] D; (split; [intros y; cbn; do 2 f_equal; ring|]).
  - change (val zero) with 0. apply const_ok. - rewrite (proj2 one_R). apply const_ok.
Qed.
Theorem affine64_abm : forall mu sigma m s, same_parameter mu m -> same_parameter sigma s -> affine64 (abm64 mu sigma) (SimModel.abm m s) m (fun _ => 0) s (fun _ => 0).
Proof.
  intros mu sigma m s M S t T. split; intros x d X E D.
  - injection E as <-. rewrite (M t T). split; [intros y; cbn; do 2 f_equal; ring|apply const_ok].
  - cbn in E. assert (FS : fin (sigma t)) by (unfold checked64 in E; destruct (fle zero (sigma t)); [injection E as E; rewrite E; exact D|discriminate]). destruct (checked64_ret _ _ _ E FS) as [-> P]. rewrite (S t T) in *. split; [intros y; cbn; rewrite checked_ok by exact P; do 2 f_equal; ring|apply const_ok].
Qed.
Theorem affine64_gbm : forall mu sigma m s, same_parameter mu m -> same_parameter sigma s -> affine64 (gbm64 mu sigma) (SimModel.gbm m s) (fun _ => 0) m (fun _ => 0) s.
Proof.
  intros mu sigma m s M S t T. split; intros x d X E D.
  - injection E as <-. destruct (fmul_fin _ _ D) as (_ & _ & V & _). rewrite V, (M t T). split; [intros y; cbn; do 2 f_equal; ring|apply prod_ok].
  - cbn in E. assert (FS : fin (sigma t)) by (unfold checked64 in E; destruct (fle zero (sigma t)); [injection E as E; rewrite <- E in D; apply (fmul_fin _ _ D)|discriminate]). destruct (checked64_ret _ _ _ E FS) as [-> P]. destruct (fmul_fin _ _ D) as (_ & _ & V & _). rewrite V. rewrite (S t T) in *. split; [intros y; cbn; rewrite checked_ok by exact P; do 2 f_equal; ring|apply prod_ok].
Qed.
Theorem affine64_ou : forall mu sigma theta m s h, same_parameter mu m -> same_parameter sigma s -> same_parameter theta h ->
  affine64 (ou64 mu sigma theta) (SimModel.ou m s h) (fun t => h t * m t) (fun t => - h t) s (fun _ => 0).
Proof.
  intros mu sigma theta m s h M S Th t T. split; intros x d X E D.
  - injection E as <-. destruct (fmul_fin _ _ D) as (_ & F2 & V & _). destruct (fsub_fin _ _ F2) as (_ & _ & V2 & _). split; [intros y; cbn; do 2 f_equal; ring|]. rewrite V, V2, (Th t T).
    destruct (rnd_minus_err (val (mu t)) (val x) (val_fmt _) (val_fmt _)) as (e & E & R). rewrite R, (M t T). set (a := m (val t)). set (c := h (val t)). set (y := val x).
    destruct (rnd_err (c * ((a - y) * (1 + e)))) as (e' & h' & E' & H' & R'). rewrite R'. replace (c * ((a - y) * (1 + e)) * (1 + e') + h' - (c * a + - c * y)) with (c * (a - y) * (e + e' + e * e') + h') by ring.
    eapply Rle_trans; [apply Rabs_triang|]. rewrite !Rabs_mult. rewrite Rabs_Ropp. pose proof u_pos. pose proof eta_pos.
    assert (EE : Rabs (e + e' + e * e') <= (1 + u) ^ 2 - 1). { eapply Rle_trans; [apply Rabs_triang|]. rewrite Rabs_mult. pose proof (Rabs_triang e e'). pose proof (Rabs_pos e). pose proof (Rabs_pos e'). nra. }
    assert (AY : Rabs (a - y) <= Rabs a + Rabs y) by (unfold Rminus; eapply Rle_trans; [apply Rabs_triang|rewrite Rabs_Ropp; lra]). pose proof (Rabs_pos c).
    assert (Rabs c * Rabs (a - y) * Rabs (e + e' + e * e') <= Rabs c * (Rabs a + Rabs y) * ((1 + u) ^ 2 - 1)) by (apply Rmult_le_compat; try assumption; [apply Rmult_le_pos; apply Rabs_pos|apply Rabs_pos|apply Rmult_le_compat_l; assumption]). lra.
  - cbn in E. assert (FS : fin (sigma t)) by (unfold checked64 in E; destruct (fle zero (sigma t)); [injection E as E; rewrite E; exact D|discriminate]). destruct (checked64_ret _ _ _ E FS) as [-> P]. rewrite (S t T) in *. split; [intros y; cbn; rewrite checked_ok by exact P; do 2 f_equal; ring|apply const_ok].
Qed.
Theorem affine64_hull_white : forall alpha sigma theta a s h, same_parameter alpha a -> same_parameter sigma s -> same_parameter theta h ->
  affine64 (hull_white64 alpha sigma theta) (SimModel.hull_white a s h) h (fun t => - a t) s (fun _ => 0).
Proof.
  intros alpha sigma theta a s h A S Th t T. split; intros x d X E D.
  - injection E as <-. destruct (fsub_fin _ _ D) as (_ & F2 & V & _). destruct (fmul_fin _ _ F2) as (_ & _ & V2 & _). split; [intros y; cbn; do 2 f_equal; ring|]. rewrite V.
    destruct (rnd_minus_err (val (theta t)) (val (fmul (alpha t) x)) (val_fmt _) (val_fmt _)) as (e & E & R). rewrite R, V2, (Th t T), (A t T). set (c := a (val t)). set (b := h (val t)). set (y := val x).
    destruct (rnd_err (c * y)) as (e' & h' & E' & H' & R'). rewrite R'. replace ((b - (c * y * (1 + e') + h')) * (1 + e) - (b + - c * y)) with (b * e + - (c * y * (e + e' + e * e')) + - (h' * (1 + e))) by ring.
    eapply Rle_trans; [apply Rabs_triang|]. eapply Rle_trans; [apply Rplus_le_compat_r, Rabs_triang|]. rewrite !Rabs_Ropp, !Rabs_mult. pose proof u_pos. pose proof u_small. pose proof eta_pos. pose proof (one_u e E).
    assert (EE : Rabs (e + e' + e * e') <= (1 + u) ^ 2 - 1). { eapply Rle_trans; [apply Rabs_triang|]. rewrite Rabs_mult. pose proof (Rabs_triang e e'). pose proof (Rabs_pos e). pose proof (Rabs_pos e'). nra. }
    assert (B1 : Rabs b * Rabs e <= Rabs b * ((1 + u) ^ 2 - 1)) by (apply Rmult_le_compat_l; [apply Rabs_pos|nra]).
    assert (B2 : Rabs c * Rabs y * Rabs (e + e' + e * e') <= Rabs c * Rabs y * ((1 + u) ^ 2 - 1)) by (apply Rmult_le_compat_l; [apply Rmult_le_pos; apply Rabs_pos|exact EE]).
    assert (B3 : Rabs h' * Rabs (1 + e) <= eta * 2) by (apply Rmult_le_compat; try apply Rabs_pos; lra). lra.
  - injection E as <-. rewrite (S t T). split; [intros y; cbn; do 2 f_equal; ring|apply const_ok].
Qed.
Theorem affine64_ho_lee : forall sigma theta s h, same_parameter sigma s -> same_parameter theta h ->
  affine64 (ho_lee64 sigma theta) (SimModel.ho_lee s h) h (fun _ => 0) s (fun _ => 0).
Proof.
  intros sigma theta s h S Th t T. split; intros x d X E D; cbn in E.
  - assert (FS : fin (theta t)) by (unfold checked64 in E; destruct (fle zero (theta t)); [injection E as E; rewrite E; exact D|discriminate]). destruct (checked64_ret _ _ _ E FS) as [-> P]. rewrite (Th t T) in *. split; [intros y; cbn; rewrite checked_ok by exact P; do 2 f_equal; ring|apply const_ok].
  - assert (FS : fin (sigma t)) by (unfold checked64 in E; destruct (fle zero (sigma t)); [injection E as E; rewrite E; exact D|discriminate]). destruct (checked64_ret _ _ _ E FS) as [-> P]. rewrite (S t T) in *. split; [intros y; cbn; rewrite checked_ok by exact P; do 2 f_equal; ring|apply const_ok].
Qed.
Print Assumptions affine64_bm. Print Assumptions affine64_abm. Print Assumptions affine64_gbm. Print Assumptions affine64_ou. Print Assumptions affine64_hull_white. Print Assumptions affine64_ho_lee.
Example affine64_meets : same_parameter (fun _ => lit 3 (-2)) (fun _ => val (lit 3 (-2))) /\ exists d, drift64 (gbm64 (fun _ => lit 3 (-2)) (fun _ => one)) one zero = Ret d /\ fin d.
Proof. split; [intros t _; reflexivity|]. eexists. split; [reflexivity|vm_compute; reflexivity]. Qed.

(** ** One step *)
Lemma pow_u_2 : (1 + u) ^ 5 <= 2.
Proof. pose proof u_pos as U. pose proof u_tiny as T. apply Rle_trans with ((1 + / 1000000) ^ 5); [apply pow_incr; lra|lra]. Qed.
Lemma step64_near P p a0 a1 b0 b1 dt x t z x' : affine64 P p a0 a1 b0 b1 -> fin t -> 0 <= val dt -> euler_step64 P dt (fsqrt dt) x t z = Ret x' -> fin x' ->
  (forall y, SimModel.euler_step p (val dt) (Some y) (val t) (val z) (Some 0) =
     Ret (Some (y + (a0 (val t) + a1 (val t) * y) * val dt + (b0 (val t) + b1 (val t) * y) * sqrt (val dt) * val z))) /\
  near ((1 + u) ^ 6)
    (Rabs (val x) + (Rabs (a0 (val t)) + Rabs (a1 (val t)) * Rabs (val x)) * val dt + (Rabs (b0 (val t)) + Rabs (b1 (val t)) * Rabs (val x)) * sqrt (val dt) * Rabs (val z))
    (4 * eta * (1 + val dt + (1 + sqrt (val dt)) * Rabs (val z)))
    (val x') (val x + (a0 (val t) + a1 (val t) * val x) * val dt + (b0 (val t) + b1 (val t) * val x) * sqrt (val dt) * val z).
Proof.
  intros AF T D E F'. pose proof (step64_fin _ _ _ _ _ _ _ E F') as X. unfold euler_step64 in E. destruct (drift64 P x t) as [d| |] eqn:ED; try discriminate. destruct (diffusion64 P x t) as [s| |] eqn:ES; try discriminate. cbn [bind] in E. injection E as <-.
  destruct (fadd_fin _ _ F') as (F1 & _ & V1 & _). destruct (fadd_fin _ _ F1) as (F2 & F3 & V2 & _). destruct (fadd_fin _ _ F2) as (_ & F4 & V3 & _). destruct (fmul_fin _ _ F4) as (Fd & Fdt & V4 & _). destruct (fmul_fin _ _ F3) as (F5 & Fz & V5 & _). destruct (fmul_fin _ _ F5) as (Fs & Fsc & V6 & _).
  destruct (AF t T) as [AD AS]. destruct (AD x d X ED Fd) as [RD ND]. destruct (AS x s X ES Fs) as [RS NS]. destruct (sqrt_rel dt Fsc D) as (e & He & VS).
  split; [intros y; unfold SimModel.euler_step; rewrite RD, RS; cbn; do 2 f_equal; ring|].
  set (A := a0 (val t) + a1 (val t) * val x) in *. set (Am := Rabs (a0 (val t)) + Rabs (a1 (val t)) * Rabs (val x)) in *. set (B := b0 (val t) + b1 (val t) * val x) in *. set (Bm := Rabs (b0 (val t)) + Rabs (b1 (val t)) * Rabs (val x)) in *.
  assert (MA : Rabs A <= Am) by (unfold A, Am; eapply Rle_trans; [apply Rabs_triang|rewrite Rabs_mult; lra]). assert (MB : Rabs B <= Bm) by (unfold B, Bm; eapply Rle_trans; [apply Rabs_triang|rewrite Rabs_mult; lra]).
  pose proof u_pos as U. pose proof u_tiny as UT. pose proof eta_pos as H0. set (q := sqrt (val dt)) in *. assert (Q0 : 0 <= q) by apply sqrt_pos. set (g := 1 + u) in *. assert (G1 : 1 <= g) by (unfold g; lra). clearbody A Am B Bm q. set (D' := val dt) in *. set (Z := val z) in *. pose proof (Rabs_pos Z) as Z0.
  assert (PW : forall k, 1 <= g ^ k) by (intros k; apply pow_R1_Rle; exact G1).
  assert (N1 : near (g ^ 2) Am (2 * eta) (val d) A) by (split; assumption). assert (N2 : near (g ^ 2) Bm (2 * eta) (val s) B) by (split; assumption).
  assert (W1 : 0 <= eta * D') by (apply Rmult_le_pos; lra). assert (W2 : 0 <= eta * q) by (apply Rmult_le_pos; lra). assert (W3 : 0 <= eta * Rabs Z) by (apply Rmult_le_pos; lra). assert (W4 : 0 <= eta * q * Rabs Z) by (apply Rmult_le_pos; lra).
  assert (W5 : 0 <= 2 * eta * D' * (1 + u)) by (replace (2 * eta * D' * (1 + u)) with (2 * (1 + u) * (eta * D')) by ring; apply Rmult_le_pos; lra). assert (W6 : 0 <= 2 * eta * q * (1 + u)) by (replace (2 * eta * q * (1 + u)) with (2 * (1 + u) * (eta * q)) by ring; apply Rmult_le_pos; lra). assert (W7 : 0 <= 2 * eta * q * (1 + u) * (1 + u)) by (apply Rmult_le_pos; lra).
  (* the drift term *)
  pose proof (near_mul _ _ _ _ _ D' N1) as N3. rewrite (Rabs_pos_eq D' D) in N3. apply near_rnd in N3; [|apply PW|lra]. rewrite <- V4 in N3.
  assert (N4 : near (g ^ 3) (Rabs (val x)) 0 (val x) (val x)) by (apply (near_weak 1 _ _ 0 0); [apply PW|lra|apply near_self]).
  assert (N3' : near (g ^ 3) (Am * D') (2 * eta * D' * (1 + u) + eta) (val (fmul d dt)) (A * D')) by (apply (near_weak (g ^ 2 * (1 + u)) _ _ (2 * eta * D' * (1 + u) + eta)); [right; unfold g; ring|lra|exact N3]).
  pose proof (near_add _ _ _ _ _ _ _ _ _ N4 N3') as N5. destruct (rnd_plus_err (val x) (val (fmul d dt)) (val_fmt _) (val_fmt _)) as (e1 & E1 & R1).
  apply (near_rel _ _ _ _ _ e1) in N5; [|apply PW|lra|exact E1]. rewrite <- R1, <- V3 in N5.
  (* the diffusion term *)
  pose proof (near_mul _ _ _ _ _ q N2) as N6. rewrite (Rabs_pos_eq q Q0) in N6. apply (near_rel _ _ _ _ _ e) in N6; [|apply PW|lra|exact He]. replace (val s * q * (1 + e)) with (val s * (q * (1 + e))) in N6 by ring. rewrite <- VS in N6.
  apply near_rnd in N6; [|pose proof (PW 2%nat); change (1 + u) with g; nra|lra]. rewrite <- V6 in N6. apply (near_mul _ _ _ _ _ Z) in N6. apply near_rnd in N6; [|pose proof (PW 4%nat) as P4; change (1 + u) with g; replace (g ^ 2 * g * g) with (g ^ 4) by ring; exact P4|apply Rmult_le_pos; [lra|exact Z0]]. rewrite <- V5 in N6.
  (* the sum *)
  set (w1 := (0 + (2 * eta * D' * (1 + u) + eta)) * (1 + u)) in *. set (w2 := ((2 * eta * q * (1 + u) * (1 + u) + eta) * Rabs Z) * (1 + u) + eta) in *.
  assert (N7 : near (g ^ 5) (Rabs (val x) + Am * D') w1 (val (fadd x (fmul d dt))) (val x + A * D')).
  { apply (near_weak (g ^ 3 * (1 + u)) _ _ w1); [|lra|exact N5]. change (1 + u) with g. replace (g ^ 3 * g) with (g ^ 4) by ring. apply Rle_pow; [exact G1|lia]. }
  assert (N8 : near (g ^ 5) (Bm * q * Rabs Z) w2 (val (fmul (fmul s (fsqrt dt)) z)) (B * q * Z)).
  { apply (near_weak (g ^ 2 * (1 + u) * (1 + u) * (1 + u)) _ _ w2); [right; unfold g; ring|lra|exact N6]. }
  pose proof (near_add _ _ _ _ _ _ _ _ _ N7 N8) as N9. destruct (rnd_plus_err (val (fadd x (fmul d dt))) (val (fmul (fmul s (fsqrt dt)) z)) (val_fmt _) (val_fmt _)) as (e2 & E2 & R2).
  assert (w10 : 0 <= w1) by (unfold w1; apply Rmult_le_pos; lra). assert (w20 : 0 <= w2) by (unfold w2; assert (0 <= (2 * eta * q * (1 + u) * (1 + u) + eta) * Rabs Z * (1 + u)) by (apply Rmult_le_pos; [apply Rmult_le_pos; lra|lra]); lra).
  apply (near_rel _ _ _ _ _ e2) in N9; [|apply PW|lra|exact E2]. rewrite <- R2, <- V2 in N9.
  assert (VZ : val (fadd (fadd (fadd x (fmul d dt)) (fmul (fmul s (fsqrt dt)) z)) zero) = val (fadd (fadd x (fmul d dt)) (fmul (fmul s (fsqrt dt)) z))) by (rewrite V1; change (val zero) with 0; rewrite Rplus_0_r; apply rnd_id, val_fmt).
  rewrite VZ. apply (near_weak (g ^ 5 * (1 + u)) _ _ ((w1 + w2) * (1 + u))); [right; unfold g; ring| |exact N9].
  assert (P5 := pow_u_2). fold g in P5.
  assert (Q1 : g <= 2 /\ g * g <= 2 /\ g * g * g <= 2 /\ g * g * g * g <= 2).
  { assert (L : forall k, (k <= 5)%nat -> g ^ k <= 2) by (intros k K; eapply Rle_trans; [apply Rle_pow; [exact G1|exact K]|exact P5]). repeat split; [pose proof (L 1%nat ltac:(lia))|pose proof (L 2%nat ltac:(lia))|pose proof (L 3%nat ltac:(lia))|pose proof (L 4%nat ltac:(lia))]; cbn in *; lra. }
  destruct Q1 as (q1 & q2 & q3 & q4). unfold w1, w2. change (1 + u) with g.
  replace (((0 + (2 * eta * D' * g + eta)) * g + ((2 * eta * q * g * g + eta) * Rabs Z * g + eta)) * g)
    with (2 * (eta * D') * (g * g * g) + eta * (g * g) + 2 * (eta * q * Rabs Z) * (g * g * g * g) + (eta * Rabs Z) * (g * g) + eta * g) by ring.
  assert (2 * (eta * D') * (g * g * g) <= 2 * (eta * D') * 2) by (apply Rmult_le_compat_l; lra). assert (eta * (g * g) <= eta * 2) by (apply Rmult_le_compat_l; lra).
  assert (2 * (eta * q * Rabs Z) * (g * g * g * g) <= 2 * (eta * q * Rabs Z) * 2) by (apply Rmult_le_compat_l; lra). assert (eta * Rabs Z * (g * g) <= eta * Rabs Z * 2) by (apply Rmult_le_compat_l; lra). assert (eta * g <= eta * 2) by (apply Rmult_le_compat_l; lra). lra.
Qed.

(** ** The path *)
(** the exact recursion with the coefficients, the step, the times and the noise of the program *)
Fixpoint exact_euler (p : SimModel.process) (dt : R) (tm z : nat -> R) (x_0 : R) (i : nat) : res SimModel.fl :=
  match i with
  | O => Ret (Some x_0)
  | S i' => let! y := exact_euler p dt tm z x_0 i' in SimModel.euler_step p dt y (tm i') (z i') (Some 0)
  end.
Lemma step_bound A0 A1 B0 B1 Zb D q a0 a1 b0 b1 z x y x' g w M e : 0 <= D -> 0 <= q -> Rabs a0 <= A0 -> Rabs a1 <= A1 -> Rabs b0 <= B0 -> Rabs b1 <= B1 -> Rabs z <= Zb -> 1 <= g ->
  Rabs y <= M -> Rabs (x - y) <= e ->
  near g (Rabs x + (Rabs a0 + Rabs a1 * Rabs x) * D + (Rabs b0 + Rabs b1 * Rabs x) * q * Rabs z) w x' (x + (a0 + a1 * x) * D + (b0 + b1 * x) * q * z) ->
  let G := 1 + A1 * D + B1 * q * Zb in let c := A0 * D + B0 * q * Zb in
  Rabs (y + (a0 + a1 * y) * D + (b0 + b1 * y) * q * z) <= G * M + c /\
  Rabs (x' - (y + (a0 + a1 * y) * D + (b0 + b1 * y) * q * z)) <= g * G * e + (g - 1) * (G * M + c) + w.
Proof.
  intros D0 Q0 HA0 HA1 HB0 HB1 HZ Hg HM He [HN _] G c. pose proof (Rabs_pos a0). pose proof (Rabs_pos a1). pose proof (Rabs_pos b0). pose proof (Rabs_pos b1). pose proof (Rabs_pos z). pose proof (Rabs_pos y) as Y0. pose proof (Rabs_pos (x - y)) as E0.
  assert (K1 : Rabs a1 * D <= A1 * D) by (apply Rmult_le_compat_r; assumption). assert (K0 : Rabs a0 * D <= A0 * D) by (apply Rmult_le_compat_r; assumption).
  assert (QZ : q * Rabs z <= q * Zb) by (apply Rmult_le_compat_l; assumption). assert (QZ0 : 0 <= q * Rabs z) by (apply Rmult_le_pos; assumption).
  assert (L1 : Rabs b1 * (q * Rabs z) <= B1 * (q * Zb)) by (apply Rmult_le_compat; assumption). assert (L0 : Rabs b0 * (q * Rabs z) <= B0 * (q * Zb)) by (apply Rmult_le_compat; assumption).
  assert (S1 : 0 <= Rabs a1 * D) by (apply Rmult_le_pos; assumption). assert (S2 : 0 <= Rabs b1 * (q * Rabs z)) by (apply Rmult_le_pos; assumption).
  assert (MAJ : forall v m, Rabs v <= m -> Rabs v + (Rabs a0 + Rabs a1 * Rabs v) * D + (Rabs b0 + Rabs b1 * Rabs v) * q * Rabs z <= G * m + c).
  { intros v m V. pose proof (Rabs_pos v) as V0. assert (T : (1 + Rabs a1 * D + Rabs b1 * (q * Rabs z)) * Rabs v <= G * m) by (unfold G; apply Rmult_le_compat; lra). unfold c.
    replace (Rabs v + (Rabs a0 + Rabs a1 * Rabs v) * D + (Rabs b0 + Rabs b1 * Rabs v) * q * Rabs z) with ((1 + Rabs a1 * D + Rabs b1 * (q * Rabs z)) * Rabs v + (Rabs a0 * D + Rabs b0 * (q * Rabs z))) by ring. lra. }
  split.
  - eapply Rle_trans; [|apply (MAJ y M HM)]. eapply Rle_trans; [apply Rabs_triang|]. eapply Rle_trans; [apply Rplus_le_compat_r, Rabs_triang|]. rewrite !Rabs_mult, (Rabs_pos_eq D D0), (Rabs_pos_eq q Q0).
    assert (Rabs (a0 + a1 * y) <= Rabs a0 + Rabs a1 * Rabs y) by (eapply Rle_trans; [apply Rabs_triang|rewrite Rabs_mult; lra]). assert (Rabs (b0 + b1 * y) <= Rabs b0 + Rabs b1 * Rabs y) by (eapply Rle_trans; [apply Rabs_triang|rewrite Rabs_mult; lra]).
    apply Rplus_le_compat; [apply Rplus_le_compat_l, Rmult_le_compat_r; assumption|]. rewrite !Rmult_assoc. apply Rmult_le_compat_r; assumption.
  - assert (XM : Rabs x <= M + e) by (replace x with (y + (x - y)) by ring; eapply Rle_trans; [apply Rabs_triang|lra]). pose proof (MAJ x (M + e) XM) as MX.
    replace (x' - (y + (a0 + a1 * y) * D + (b0 + b1 * y) * q * z)) with ((x' - (x + (a0 + a1 * x) * D + (b0 + b1 * x) * q * z)) + (1 + a1 * D + b1 * (q * z)) * (x - y)) by ring.
    eapply Rle_trans; [apply Rabs_triang|]. rewrite Rabs_mult.
    assert (LG : Rabs (1 + a1 * D + b1 * (q * z)) <= G).
    { eapply Rle_trans; [apply Rabs_triang|]. eapply Rle_trans; [apply Rplus_le_compat_r, Rabs_triang|]. rewrite Rabs_R1, !Rabs_mult, (Rabs_pos_eq D D0), (Rabs_pos_eq q Q0). unfold G. lra. }
    assert (LE : Rabs (1 + a1 * D + b1 * (q * z)) * Rabs (x - y) <= G * e) by (apply Rmult_le_compat; try assumption; apply Rabs_pos).
    assert ((g - 1) * (Rabs x + (Rabs a0 + Rabs a1 * Rabs x) * D + (Rabs b0 + Rabs b1 * Rabs x) * q * Rabs z) <= (g - 1) * (G * (M + e) + c)) by (apply Rmult_le_compat_l; lra). lra.
Qed.
Lemma euler_recursion X c G g om i Y E e : 0 <= X -> 0 <= c -> 1 <= G -> 1 <= g -> 0 <= om ->
  e = (g ^ i - 1) * ((X + INR i * c) * G ^ i) + INR i * om * (g * G) ^ i ->
  Rabs Y <= G * ((X + INR i * c) * G ^ i) + c -> Rabs E <= g * G * e + (g - 1) * (G * ((X + INR i * c) * G ^ i) + c) + om ->
  Rabs Y <= (X + INR (S i) * c) * G ^ S i /\ Rabs E <= (g ^ S i - 1) * ((X + INR (S i) * c) * G ^ S i) + INR (S i) * om * (g * G) ^ S i.
Proof.
  intros X0 c0 G1 g1 o0 -> HY HE. rewrite S_INR. pose proof (pos_INR i) as I0. assert (PG : 1 <= G ^ S i) by (apply pow_R1_Rle; exact G1). assert (PG0 : 1 <= G ^ i) by (apply pow_R1_Rle; exact G1). assert (Pg : 1 <= g ^ i) by (apply pow_R1_Rle; exact g1).
  assert (PP : 1 <= (g * G) ^ S i) by (apply pow_R1_Rle; nra). set (M := (X + INR i * c) * G ^ i) in *. assert (M0 : 0 <= M) by (unfold M; apply Rmult_le_pos; nra).
  assert (MS : G * M + c <= (X + (INR i + 1) * c) * G ^ S i). { replace ((X + (INR i + 1) * c) * G ^ S i) with (G * M + c * G ^ S i) by (unfold M; cbn; ring). nra. }
  split; [lra|]. eapply Rle_trans; [exact HE|].
  assert (GM : G * M <= G * M + c) by lra. set (M' := G * M + c) in *.
  replace (g * G * ((g ^ i - 1) * M + INR i * om * (g * G) ^ i) + (g - 1) * M' + om) with (g * (g ^ i - 1) * (G * M) + (g - 1) * M' + (INR i * om * (g * G) ^ S i + om)) by (cbn; ring).
  replace ((INR i + 1) * om * (g * G) ^ S i) with (INR i * om * (g * G) ^ S i + om * (g * G) ^ S i) by ring.
  assert (T1 : g * (g ^ i - 1) * (G * M) <= g * (g ^ i - 1) * M') by (apply Rmult_le_compat_l; [nra|exact GM]).
  assert (T2 : (g ^ S i - 1) * M' <= (g ^ S i - 1) * ((X + (INR i + 1) * c) * G ^ S i)) by (apply Rmult_le_compat_l; [cbn; nra|exact MS]).
  assert (T3 : om <= om * (g * G) ^ S i) by nra.
  replace ((g ^ S i - 1) * M') with (g * (g ^ i - 1) * M' + (g - 1) * M') in T2 by (cbn; ring). lra.
Qed.
(** Value i of a computed path differs from the exact recursion by a relative error of about 6 i
    units in the last place of a majorant of the path, and by i underflow units.  The bound holds
    for every noise and for every affine process. *)
Theorem euler64_error : forall P p a0 a1 b0 b1, affine64 P p a0 a1 b0 b1 ->
  forall x_0 t_0 t_n n z ts path, euler64 P x_0 t_0 t_n n z = Ret (ts, path) -> small n ->
  forall i x, nth_error path i = Some x -> fin x ->
  let D := val (dt64 t_0 t_n n) in let tm k := val (nth k ts nan) in
  forall A0 A1 B0 B1 Zb, (forall k, (k < i)%nat -> fin (nth k ts nan) /\ Rabs (a0 (tm k)) <= A0 /\ Rabs (a1 (tm k)) <= A1 /\ Rabs (b0 (tm k)) <= B0 /\ Rabs (b1 (tm k)) <= B1 /\ Rabs (val (z k)) <= Zb) ->
  exists y, exact_euler p D tm (fun k => val (z k)) (val x_0) i = Ret (Some y) /\
    let G := 1 + A1 * D + B1 * sqrt D * Zb in let c := A0 * D + B0 * sqrt D * Zb in
    Rabs y <= (Rabs (val x_0) + INR i * c) * G ^ i /\
    Rabs (val x - y) <= ((1 + u) ^ (6 * i) - 1) * ((Rabs (val x_0) + INR i * c) * G ^ i) + INR i * (4 * eta * (1 + D + (1 + sqrt D) * Zb)) * ((1 + u) ^ 6 * G) ^ i.
Proof.
  intros P p a0 a1 b0 b1 AF x_0 t_0 t_n n z ts path H Sm. pose proof (euler64_paths _ _ _ _ _ _ _ _ H) as (PL & TL & P0 & PF). unfold euler64 in H. destruct (flt t_0 t_n) eqn:LT; [|discriminate]. cbn [assertb] in H. cbv zeta in H.
  destruct (path_loop64 P t_0 (dt64 t_0 t_n n) (fsqrt (dt64 t_0 t_n n)) z 0 n x_0) as [l| |] eqn:E; try discriminate. cbn [bind] in H. injection H as <- <-.
  destruct (path_loop64_spec _ _ _ _ _ _ _ _ _ E) as (_ & _ & HS). intros i x Hx Fx D tm A0 A1 B0 B1 Zb. revert x Hx Fx.
  induction i as [|i IH]; intros x Hx Fx HB.
  - rewrite P0 in Hx. injection Hx as <-. exists (val x_0). split; [reflexivity|]. cbv zeta. change (6 * 0)%nat with 0%nat. cbn [INR pow]. rewrite Rminus_eq_0, Rabs_R0. split; lra.
  - assert (I : (i < n)%nat). { assert (S i < length l)%nat by (apply nth_error_Some; congruence). lia. }
    destruct (HS i I) as (w & w' & Hw & Hw' & ST). rewrite Hw' in Hx. injection Hx as <-. cbn [Nat.add] in ST. pose proof (step64_fin _ _ _ _ _ _ _ ST Fx) as Fw.
    destruct (IH w Hw Fw (fun k K => HB k ltac:(lia))) as (y & EY & MY & BY). cbv zeta in MY, BY. rewrite pow_mult in BY. destruct (HB i ltac:(lia)) as (FT & H0 & H1 & H2 & H3 & H4).
    assert (TI : nth i (times64 t_0 t_n n) nan = time64 t_0 (dt64 t_0 t_n n) i).
    { unfold times64. rewrite (nth_indep _ nan (time64 t_0 (dt64 t_0 t_n n) 0)) by (rewrite map_length, seq_length; lia). rewrite map_nth, seq_nth by lia. reflexivity. }
    unfold tm in *. rewrite TI in *. set (t := time64 t_0 (dt64 t_0 t_n n) i) in *.
    assert (FD : fin (dt64 t_0 t_n n)). { unfold euler_step64 in ST. destruct (drift64 P w t) as [d| |]; try discriminate. destruct (diffusion64 P w t) as [s| |]; try discriminate. cbn [bind] in ST. injection ST as <-. destruct (fadd_fin _ _ Fx) as (Q1 & _). destruct (fadd_fin _ _ Q1) as (Q2 & _). destruct (fadd_fin _ _ Q2) as (_ & Q3 & _). apply (fmul_fin _ _ Q3). }
    destruct (dt64_fin t_0 t_n n Sm ltac:(lia) LT FD) as (_ & _ & _ & _ & D0). fold D in D0.
    destruct (step64_near P p a0 a1 b0 b1 (dt64 t_0 t_n n) w t (z i) w' AF FT D0 ST Fx) as [EX NR]. fold D in EX, NR. exists (y + (a0 (val t) + a1 (val t) * y) * D + (b0 (val t) + b1 (val t) * y) * sqrt D * val (z i)). split.
    { cbn [exact_euler]. rewrite EY. cbn [bind]. rewrite TI. apply EX. }
    cbv zeta. set (om := 4 * eta * (1 + D + (1 + sqrt D) * Zb)) in *. assert (Q0 : 0 <= sqrt D) by apply sqrt_pos. pose proof u_pos as U. pose proof eta_pos as E0.
    assert (NR' : near ((1 + u) ^ 6) (Rabs (val w) + (Rabs (a0 (val t)) + Rabs (a1 (val t)) * Rabs (val w)) * D + (Rabs (b0 (val t)) + Rabs (b1 (val t)) * Rabs (val w)) * sqrt D * Rabs (val (z i))) om (val w') (val w + (a0 (val t) + a1 (val t) * val w) * D + (b0 (val t) + b1 (val t) * val w) * sqrt D * val (z i))).
    { eapply near_weak; [apply Rle_refl| |exact NR]. unfold om. apply Rmult_le_compat_l; [lra|]. apply Rplus_le_compat_l. apply Rmult_le_compat_l; [lra|exact H4]. }
    pose proof (Rabs_pos (a0 (val t))). pose proof (Rabs_pos (a1 (val t))). pose proof (Rabs_pos (b0 (val t))). pose proof (Rabs_pos (b1 (val t))). pose proof (Rabs_pos (val (z i))).
    assert (G6 : 1 <= (1 + u) ^ 6) by (apply pow_R1_Rle; lra).
    destruct (step_bound A0 A1 B0 B1 Zb D (sqrt D) _ _ _ _ _ _ _ _ _ _ _ _ D0 Q0 H0 H1 H2 H3 H4 G6 MY BY NR') as [SB1 SB2]. cbv zeta in SB1, SB2.
    set (G := 1 + A1 * D + B1 * sqrt D * Zb) in *. set (c := A0 * D + B0 * sqrt D * Zb) in *.
    assert (QZ : 0 <= sqrt D * Zb) by (apply Rmult_le_pos; lra). assert (G1 : 1 <= G) by (unfold G; rewrite Rmult_assoc; assert (0 <= A1 * D) by (apply Rmult_le_pos; lra); assert (0 <= B1 * (sqrt D * Zb)) by (apply Rmult_le_pos; lra); lra).
    assert (c0 : 0 <= c) by (unfold c; rewrite Rmult_assoc; assert (0 <= A0 * D) by (apply Rmult_le_pos; lra); assert (0 <= B0 * (sqrt D * Zb)) by (apply Rmult_le_pos; lra); lra).
    assert (om0 : 0 <= om) by (unfold om; apply Rmult_le_pos; [lra|]; assert (0 <= (1 + sqrt D) * Zb) by (apply Rmult_le_pos; lra); lra).
    rewrite pow_mult. refine (euler_recursion _ _ _ _ _ _ _ _ _ (Rabs_pos _) c0 G1 G6 om0 eq_refl SB1 SB2).
Qed.
Print Assumptions euler64_error.
Example euler64_error_meets : exists ts path, euler64 (gbm64 (fun _ => lit 1 (-4)) (fun _ => lit 1 (-2))) (lit 100 0) zero one 4 (fun k => if Nat.eqb k 1 then lit (-1) 0 else one) = Ret (ts, path) /\ small 4 /\
  (exists x, nth_error path 4 = Some x /\ fin x) /\ forall k, (k < 4)%nat -> fin (nth k ts nan).
Proof.
  eexists. eexists. split; [reflexivity|]. split; [unfold small; lia|]. split; [eexists; split; [reflexivity|vm_compute; reflexivity]|].
  intros k K. destruct k as [|[|[|[|k]]]]; [vm_compute; reflexivity..|lia].
Qed.
(** geometric Brownian motion with constant coefficients *)
Corollary gbm64_error : forall mu sigma x_0 t_0 t_n n z ts path i x Zb,
  euler64 (gbm64 (fun _ => mu) (fun _ => sigma)) x_0 t_0 t_n n z = Ret (ts, path) -> small n -> nth_error path i = Some x -> fin x ->
  (forall k, (k < i)%nat -> fin (nth k ts nan) /\ Rabs (val (z k)) <= Zb) ->
  let D := val (dt64 t_0 t_n n) in let G := 1 + Rabs (val mu) * D + Rabs (val sigma) * sqrt D * Zb in
  exists y, exact_euler (SimModel.gbm (fun _ => val mu) (fun _ => val sigma)) D (fun k => val (nth k ts nan)) (fun k => val (z k)) (val x_0) i = Ret (Some y) /\
    Rabs (val x - y) <= ((1 + u) ^ (6 * i) - 1) * (Rabs (val x_0) * G ^ i) + INR i * (4 * eta * (1 + D + (1 + sqrt D) * Zb)) * ((1 + u) ^ 6 * G) ^ i.
Proof.
  intros mu sigma x_0 t_0 t_n n z ts path i x Zb H Sm Hx Fx HB D G.
  destruct (euler64_error _ _ _ _ _ _ (affine64_gbm (fun _ => mu) (fun _ => sigma) (fun _ => val mu) (fun _ => val sigma) (fun _ _ => eq_refl) (fun _ _ => eq_refl)) x_0 t_0 t_n n z ts path H Sm i x Hx Fx 0 (Rabs (val mu)) 0 (Rabs (val sigma)) Zb) as (y & EY & _ & BY).
  - intros k K. destruct (HB k K) as [A B]. rewrite Rabs_R0. repeat split; try lra; assumption.
  - exists y. split; [exact EY|]. cbv zeta in BY. replace (Rabs (val x_0) + INR i * (0 * val (dt64 t_0 t_n n) + 0 * sqrt (val (dt64 t_0 t_n n)) * Zb)) with (Rabs (val x_0)) in BY by ring. exact BY.
Qed.
Print Assumptions gbm64_error.
(** a geometric path that reaches zero stays there, if the coefficients, the step and the noise
    are finite *)
Theorem gbm64_zero : forall mu sigma dt t z x' b, fin (mu t) -> fin (sigma t) -> fin dt -> 0 <= val dt -> fin z -> euler_step64 (gbm64 mu sigma) dt (fsqrt dt) (B754_zero b) t z = Ret x' -> fin x' /\ val x' = 0.
Proof.
  intros mu sigma dt t z x' b M S D D0 Z H. unfold euler_step64 in H. cbn [gbm64 drift64 diffusion64 bind] in H. unfold checked64 in H. destruct (fle zero (sigma t)); [|discriminate]. cbn [assertb bind] in H. injection H as <-.
  assert (ZM : forall x c, fin x -> exists c', fmul x (B754_zero c) = B754_zero c') by (intros x c X; destruct x as [s|s| |s m e Hb]; try discriminate; eexists; reflexivity).
  assert (MZ : forall x c, fin x -> exists c', fmul (B754_zero c) x = B754_zero c') by (intros x c X; destruct x as [s|s| |s m e Hb]; try discriminate; eexists; reflexivity).
  assert (FS : fin (fsqrt dt)). { destruct (Bsqrt_correct 53 1024 p53 pe53 mode_NE dt) as (_ & Fi & _). unfold fin, fsqrt. rewrite Fi. destruct dt as [s|s| |s m e Hb]; try reflexivity; try discriminate. destruct s; [|reflexivity]. exfalso. cbn in D0. pose proof (F2R_lt_0 radix2 (Float radix2 (Z.neg m) e) ltac:(cbn; lia)). lra. }
  destruct (ZM (mu t) b M) as [c1 ->]. destruct (MZ dt c1 D) as [c2 ->]. destruct (ZM (sigma t) b S) as [c3 ->]. destruct (MZ (fsqrt dt) c3 FS) as [c4 ->]. destruct (MZ z c4 Z) as [c5 ->]. destruct b, c2, c5; split; reflexivity.
Qed.
Print Assumptions gbm64_zero.
Example gbm64_zero_meets : exists x', euler_step64 (gbm64 (fun _ => one) (fun _ => one)) one (fsqrt one) (B754_zero false) zero two = Ret x' /\ fin x'.
Proof. eexists. split; [reflexivity|vm_compute; reflexivity]. Qed.
(** A Cox-Ingersoll-Ross path that steps below zero is NaN from then on: the library neither
    reflects nor truncates.  A call or put on such a path pays zero ([payoff_nan_refuted]). *)
Theorem cir64_nan_refuted : (forall mu sigma theta dt sc x t z x', fin x -> val x < 0 -> euler_step64 (cir64 mu sigma theta) dt sc x t z = Ret x' -> x' = nan) /\
  exists ts path, euler64 (cir64 (fun _ => one) (fun _ => lit 4 0) (fun _ => one)) one zero one 3 (fun i => if Nat.eqb i 0 then lit (-3) 0 else one) = Ret (ts, path) /\ nth_error path 3 = Some nan /\ exists x, nth_error path 1 = Some x /\ flt x zero = true.
Proof.
  split.
  - intros mu sigma theta dt sc x t z x' X V H. unfold euler_step64 in H. cbn [cir64 drift64 diffusion64 bind] in H. unfold checked64 in H. destruct (fle zero (sigma t)); [|discriminate]. cbn [assertb bind] in H. injection H as <-.
    assert (N : fsqrt x = nan). { destruct x as [s|s| |s m e Hb]; try discriminate; [elim (Rlt_irrefl _ V)|]. destruct s; [reflexivity|]. exfalso. cbn in V. pose proof (F2R_gt_0 radix2 (Float radix2 (Z.pos m) e) ltac:(cbn; lia)). lra. }
    rewrite N. assert (A : fmul (sigma t) nan = nan) by (destruct (sigma t); reflexivity). rewrite A. assert (B : fmul nan sc = nan) by (destruct sc; reflexivity). rewrite B. assert (C : fmul nan z = nan) by (destruct z; reflexivity). rewrite C.
    assert (E : forall y, fadd y nan = nan) by (intros y; destruct y; reflexivity). rewrite E. reflexivity.
  - eexists. eexists. split; [reflexivity|]. split; [cbn [nth_error]; f_equal; apply same; vm_compute; reflexivity|]. eexists. split; [reflexivity|vm_compute; reflexivity].
Qed.
Print Assumptions cir64_nan_refuted.
