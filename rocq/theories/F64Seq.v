(** C95: sequences and grids of binary64 numbers. *)
From Coq Require Import ZArith Reals Lra Lia List Bool Psatz.
From Flocq Require Import Core.Core IEEE754.BinarySingleNaN Relative Plus_error.
From Verif Require Import Res F64Model F64Base F64Sum F64Order.
Import ListNotations.
Open Scope R_scope.

(** *** Equally spaced grids *)
Theorem linspace_total s e n : (linspace64 s e n = Panic <-> ~ (flt s e = true /\ (0 < n)%nat)) /\ forall v, linspace64 s e n = Ret v -> length v = n.
Proof. unfold linspace64. destruct (flt s e) eqn:A; destruct (0 <? n)%nat eqn:B; cbn [andb assertb]; (split; [split |]); try discriminate; try reflexivity.
  - intros K. exfalso. apply K. apply Nat.ltb_lt in B. auto.
  - intros v H. injection H as <-. rewrite map_length, seq_length. reflexivity.
  - intros _ [_ K]. apply Nat.ltb_nlt in B. contradiction.
  - intros _ [K _]. discriminate.
  - intros _ [K _]. discriminate. Qed.
(** A grid of one point is a NaN. *)
Lemma div_zero x : is_finite (fdiv x zero) = false. Proof. destruct x as [s | s | | s m e b]; reflexivity. Qed.
Lemma zero_mul x : is_finite x = false -> fmul zero x = nan. Proof. destruct x as [s | s | | s m e b]; try discriminate; reflexivity. Qed.
Theorem linspace64_one s e : flt s e = true -> linspace64 s e 1 = Ret [nan].
Proof. intros H. unfold linspace64. rewrite H. cbn [andb Nat.ltb Nat.leb assertb Nat.sub seq map].
  change (of_usize 0) with zero. rewrite zero_mul. destruct s as [t | t | | t m x b]; reflexivity. apply div_zero. Qed.

Section Grid.
  Variables (s e : f64) (n : nat).
  Hypothesis LT : flt s e = true.
  Hypothesis DF : fin (fsub e s).
  Hypothesis N2 : (2 <= n)%nat.
  Hypothesis SM : small n.
  Let step := fdiv (fsub e s) (of_usize (n - 1)).
  Let k := INR (n - 1).
  Lemma grid_step : fin step /\ 0 <= val step /\ exists e1 e2 h, Rabs e1 <= u /\ Rabs e2 <= u /\ Rabs h <= eta /\ val step = (val e - val s) * (1 + e1) / k * (1 + e2) + h.
  Proof. destruct (fsub_fin _ _ DF) as (E & S & V & B). pose proof (proj1 (flt_R s e S E) LT) as LTR. assert (SM1 : small (n - 1)) by (unfold small in *; lia). destruct (usize_R _ SM1) as [F1 V1]. fold k in V1.
    assert (K1 : 1 <= k) by (apply (le_INR 1); lia). assert (D0 : 0 <= val (fsub e s)). { rewrite V. apply rnd_ge. apply generic_format_0. lra. }
    assert (IB : 0 <= val (fsub e s) / k <= val (fsub e s)). { split. apply Rmult_le_pos; auto. left. apply Rinv_0_lt_compat. lra. apply Rmult_le_reg_r with k. lra. unfold Rdiv. rewrite Rmult_assoc, Rinv_l by lra. nra. }
    assert (RB : 0 <= rnd (val (fsub e s) / k) <= val (fsub e s)). { split. apply rnd_ge. apply generic_format_0. lra. apply rnd_le_fmt. apply val_fmt. lra. }
    destruct (fdiv_R (fsub e s) (of_usize (n - 1)) DF) as [P Q]. rewrite V1. lra. rewrite V1. apply (between_lt 0 (val (fsub e s))); auto. rewrite Rabs_R0. apply bpow_gt_0. apply val_lt.
    rewrite V1 in Q. split. exact P. split. unfold step. rewrite Q. apply RB.
    destruct (rnd_minus_err (val e) (val s) (val_fmt e) (val_fmt s)) as (e1 & H1 & R1). destruct (rnd_err (val (fsub e s) / k)) as (e2 & h & H2 & Hh & R2). exists e1, e2, h.
    split. exact H1. split. exact H2. split. exact Hh. unfold step. rewrite Q, R2, V, R1. reflexivity. Qed.

  Lemma grid_nth v i x : linspace64 s e n = Ret v -> nth_error v i = Some x -> (i < n)%nat /\ x = fadd s (fmul (of_usize i) step).
  Proof. unfold linspace64. rewrite LT. replace (0 <? n)%nat with true by (symmetry; apply Nat.ltb_lt; lia). cbn [andb assertb]. intros H. injection H as <-. intros X.
    assert (I : (i < n)%nat). { assert (nth_error (map (fun i => fadd s (fmul (of_usize i) (fdiv (fsub e s) (of_usize (n - 1))))) (seq 0 n)) i <> None) as K by congruence. apply nth_error_Some in K. rewrite map_length, seq_length in K. exact K. }
    split. exact I. rewrite nth_error_map in X. rewrite (nth_error_nth' _ 0%nat) in X by (rewrite seq_length; exact I). rewrite seq_nth in X by exact I. cbn in X. injection X as <-. reflexivity. Qed.

  (** The grid starts exactly at its start. *)
  Lemma grid_first v : linspace64 s e n = Ret v -> exists x, nth_error v 0 = Some x /\ fin x /\ val x = val s.
  Proof. intros H. destruct (fsub_fin _ _ DF) as (_ & S & _). destruct grid_step as (F1 & _). destruct (nth_error v 0) as [x |] eqn:X.
    2: { apply nth_error_None in X. rewrite (proj2 (linspace_total s e n) v H) in X. lia. }
    exists x. split. reflexivity. destruct (grid_nth v 0 x H X) as [_ ->]. assert (Z : val (fmul (of_usize 0) step) = 0 /\ fin (fmul (of_usize 0) step)).
    { destruct (fmul_R (of_usize 0) step eq_refl F1) as [P Q]. change (val (of_usize 0)) with 0. rewrite Rmult_0_l, rnd_0, Rabs_R0. apply bpow_gt_0. split. rewrite Q. change (val (of_usize 0)) with 0. rewrite Rmult_0_l. apply rnd_0. exact P. }
    destruct Z as [Z1 Z2]. destruct (fadd_R s _ S Z2) as [P Q]. rewrite Z1, Rplus_0_r, rnd_id by apply val_fmt. apply val_lt. split. exact P. rewrite Q, Z1, Rplus_0_r. apply rnd_id, val_fmt. Qed.
  (** It does not decrease. *)
  Lemma grid_mono v i j x y : linspace64 s e n = Ret v -> (i <= j)%nat -> nth_error v i = Some x -> nth_error v j = Some y -> fin y -> fin x /\ val s <= val x <= val y.
  Proof. intros H L X Y Fy. destruct grid_step as (F1 & S0 & _). destruct (fsub_fin _ _ DF) as (_ & S & _). destruct (grid_nth v i x H X) as [I ->]. destruct (grid_nth v j y H Y) as [J ->].
    assert (SI : small i) by (unfold small in *; lia). assert (SJ : small j) by (unfold small in *; lia). destruct (usize_R i SI) as [Fi Vi]. destruct (usize_R j SJ) as [Fj Vj].
    destruct (fadd_fin _ _ Fy) as (_ & FM & VY & BY). destruct (fmul_fin _ _ FM) as (_ & _ & VM & BM). rewrite Vj in VM, BM. assert (IJ : INR i <= INR j) by (apply le_INR; exact L). pose proof (pos_INR i).
    assert (MI : 0 <= rnd (INR i * val step) <= rnd (INR j * val step)). { split. apply rnd_ge. apply generic_format_0. nra. apply rnd_le. nra. }
    destruct (fmul_R (of_usize i) step Fi F1) as [P Q]. { rewrite Vi. apply (between_lt 0 (rnd (INR j * val step))); auto. rewrite Rabs_R0. apply bpow_gt_0. }
    rewrite Vi in Q. rewrite VM in VY, BY. assert (AI : val s <= rnd (val s + rnd (INR i * val step)) <= rnd (val s + rnd (INR j * val step))). { split. apply rnd_ge. apply val_fmt. lra. apply rnd_le. lra. }
    destruct (fadd_R s _ S P) as [P2 Q2]. { rewrite Q. apply (between_lt (val s) (rnd (val s + rnd (INR j * val step)))); auto. apply val_lt. }
    split. exact P2. rewrite Q2, Q, VY. exact AI. Qed.
  (** Each point is near the exact one. *)
  Lemma grid_error v i x : linspace64 s e n = Ret v -> nth_error v i = Some x -> fin x ->
    Rabs (val x - (val s + INR i / k * (val e - val s))) <= ((1 + u) ^ 3 - 1) * (val e - val s) + 2 * INR n * eta + u * Rabs (val x).
  Proof. intros H X Fx. destruct grid_step as (F1 & S0 & e1 & e2 & h2 & H1 & H2 & Hh2 & VS). destruct (fsub_fin _ _ DF) as (E & S & _). pose proof (proj1 (flt_R s e S E) LT) as LTR. destruct (grid_nth v i x H X) as [I ->].
    assert (SI : small i) by (unfold small in *; lia). destruct (usize_R i SI) as [Fi Vi]. destruct (fadd_fin _ _ Fx) as (_ & FM & VX & _). destruct (fmul_fin _ _ FM) as (_ & _ & VM & _). rewrite Vi in VM.
    destruct (FLT_plus_error_N_round_ex radix2 (-1074) 53 (fun z => negb (Z.even z)) (val s) (val (fmul (of_usize i) step)) (val_fmt _) (val_fmt _)) as (e4 & H4 & R4). rewrite u_ro_u in H4. fold (rnd (val s + val (fmul (of_usize i) step))) in R4. rewrite <- VX in R4.
    set (x := val (fadd s (fmul (of_usize i) step))) in *. destruct (rnd_err (INR i * val step)) as (e3 & h3 & H3 & Hh3 & R3). rewrite R3 in VM. rewrite VS in VM.
    assert (K1 : 1 <= k) by (apply (le_INR 1); lia). set (w := val e - val s) in *. assert (W : 0 < w) by (unfold w; lra). set (r := INR i / k).
    assert (IK : INR i <= k) by (apply le_INR; lia). pose proof (pos_INR i) as I0. assert (RB : 0 <= r <= 1). { unfold r. split. apply Rmult_le_pos; auto. left. apply Rinv_0_lt_compat. lra. apply Rmult_le_reg_r with k. lra. unfold Rdiv. rewrite Rmult_assoc, Rinv_l by lra. lra. }
    set (c := e1 + e2 + e3 + e1 * e2 + e1 * e3 + e2 * e3 + e1 * e2 * e3). set (m := val (fmul (of_usize i) step)) in *.
    assert (ME : m = r * w + w * (r * c) + (INR i * h2 * (1 + e3) + h3)). { rewrite VM. unfold r, c. field. lra. }
    replace (x - (val s + r * w)) with (w * (r * c) + (INR i * h2 * (1 + e3) + h3) + - (x * e4)). 2: { replace (x * e4) with (val s + m - x) by lra. rewrite ME. ring. }
    pose proof u_pos as U. pose proof u_small as US. pose proof eta_pos as EP.
    assert (AB : forall a b A B, Rabs a <= A -> Rabs b <= B -> Rabs (a * b) <= A * B). { intros. rewrite Rabs_mult. apply Rmult_le_compat; try apply Rabs_pos; assumption. }
    assert (CB : Rabs c <= (1 + u) ^ 3 - 1).
    { unfold c. repeat (eapply Rle_trans; [apply Rabs_triang |]). pose proof (AB _ _ _ _ H1 H2). pose proof (AB _ _ _ _ H1 H3). pose proof (AB _ _ _ _ H2 H3). pose proof (AB _ _ _ _ H0 H3).
      pose proof (Rabs_triang (e1 + e2 + e3 + e1 * e2 + e1 * e3) (e2 * e3)). pose proof (Rabs_triang (e1 + e2 + e3 + e1 * e2) (e1 * e3)). pose proof (Rabs_triang (e1 + e2 + e3) (e1 * e2)). pose proof (Rabs_triang (e1 + e2) e3). pose proof (Rabs_triang e1 e2). simpl. lra. }
    eapply Rle_trans. apply Rabs_triang. rewrite Rabs_Ropp. apply Rplus_le_compat. 2: { rewrite Rmult_comm. apply AB; auto. lra. }
    eapply Rle_trans. apply Rabs_triang. apply Rplus_le_compat.
    - rewrite Rabs_mult, (Rabs_pos_eq w), Rmult_comm by lra. apply Rmult_le_compat_r. lra. rewrite Rabs_mult, (Rabs_pos_eq r) by lra. pose proof (Rabs_pos c). nra.
    - eapply Rle_trans. apply Rabs_triang. assert (T : Rabs (1 + e3) <= 1 + u) by (eapply Rle_trans; [apply Rabs_triang |]; rewrite Rabs_R1; lra).
      assert (T2 : Rabs (INR i * h2 * (1 + e3)) <= INR i * eta * (1 + u)). { apply AB; auto. apply AB; auto. rewrite Rabs_pos_eq; lra. }
      assert (IN : INR i <= INR n - 1). { replace (INR n - 1) with (INR (n - 1)) by (rewrite minus_INR by lia; reflexivity). apply le_INR. lia. }
      assert (INR i * eta * (1 + u) <= (INR n - 1) * eta * 2). { apply Rmult_le_compat; try lra. apply Rmult_le_pos; lra. apply Rmult_le_compat_r; lra. } lra. Qed.
End Grid.
Theorem linspace64_spec s e n v : flt s e = true -> fin (fsub e s) -> (2 <= n)%nat -> small n -> linspace64 s e n = Ret v ->
  (exists x, nth_error v 0 = Some x /\ fin x /\ val x = val s) /\
  (forall i j x y, (i <= j)%nat -> nth_error v i = Some x -> nth_error v j = Some y -> fin y -> fin x /\ val s <= val x <= val y) /\
  (forall i x, nth_error v i = Some x -> fin x -> Rabs (val x - (val s + INR i / INR (n - 1) * (val e - val s))) <= ((1 + u) ^ 3 - 1) * (val e - val s) + 2 * INR n * eta + u * Rabs (val x)).
Proof. intros LT DF N2 SM H. split. apply (grid_first s e n); auto. split. intros i j x y. apply (grid_mono s e n); auto. intros i x. apply (grid_error s e n); auto. Qed.
(** The last point need not be the end. *)
Theorem linspace_end_refuted : exists s e n v x, linspace64 s e n = Ret v /\ nth_error v (n - 1) = Some x /\ fin x /\ flt x e = true.
Proof. exists zero, one, 50%nat. destruct (linspace64 zero one 50) as [v | |] eqn:E; try discriminate E. destruct (nth_error v 49) as [x |] eqn:X.
  - exists v, x. destruct (grid_nth zero one 50 eq_refl ltac:(lia) v 49 x E X) as [_ ->]. repeat split. exact X.
  - exfalso. apply nth_error_None in X. rewrite (proj2 (linspace_total _ _ _) v E) in X. lia. Qed.
(** When the length of the interval overflows the grid starts with a NaN. *)
Theorem linspace_overflow_refuted : exists s e n v, fin s /\ fin e /\ linspace64 s e n = Ret v /\ nth_error v 0 = Some nan.
Proof. exists (lit (- (2 ^ 53 - 1)) 971), fmaxv, 3%nat. eexists. split. reflexivity. split. reflexivity. split. reflexivity. vm_compute. reflexivity. Qed.

(** *** Arithmetic sequences *)
Lemma loop_nth fuel : forall x e d v k y, seq64_loop fuel x e d = Ret v -> nth_error v k = Some y -> y = fold_left fadd (repeat d k) x /\ fle y e = true.
Proof. induction fuel as [| fuel IH]; intros x e d v k y H Y; cbn in H; destruct (fle x e) eqn:L; try discriminate; try (injection H as <-; destruct k; discriminate).
  destruct (seq64_loop fuel (fadd x d) e d) as [r | |] eqn:E; try discriminate. cbn in H. injection H as <-. destruct k. injection Y as <-. auto. apply (IH _ _ _ _ _ _ E Y). Qed.
Lemma loop_len fuel : forall x e d v, seq64_loop fuel x e d = Ret v -> fle (fold_left fadd (repeat d (length v)) x) e = false.
Proof. induction fuel as [| fuel IH]; intros x e d v H; cbn in H; destruct (fle x e) eqn:L; try discriminate; try (injection H as <-; exact L).
  destruct (seq64_loop fuel (fadd x d) e d) as [r | |] eqn:E; try discriminate. cbn in H. injection H as <-. apply (IH _ _ _ _ E). Qed.
Lemma seq_eval fuel s e d v : seq64 fuel s e d = Ret v -> seq64_loop fuel s e d = Ret v.
Proof. unfold seq64. destruct (to_usize (fdiv (fsub e s) d)); [| discriminate]. cbn [unwrap bind]. destruct (z * 8 <? 2 ^ 63)%Z; [auto | discriminate]. Qed.
Lemma seq_runs fuel s e d n : to_usize (fdiv (fsub e s) d) = Some n -> (n * 8 <? 2 ^ 63)%Z = true -> seq64 fuel s e d = seq64_loop fuel s e d.
Proof. unfold seq64. intros -> H. cbn [unwrap bind]. rewrite H. reflexivity. Qed.
Lemma fold_repeat_exact d k : exact (repeat d k) = INR k * val d /\ mag (repeat d k) = INR k * Rabs (val d).
Proof. unfold exact, mag. induction k. simpl. lra. rewrite S_INR. simpl. destruct IHk as [-> ->]. lra. Qed.
(** Element [k] is the start plus [k] times the step, each addition rounded; the elements are
    those that do not exceed the end. *)
Theorem seq_elements fuel s e d v : seq64 fuel s e d = Ret v ->
  (forall k x, nth_error v k = Some x -> fle x e = true /\ (fin x -> Rabs (val x - (val s + INR k * val d)) <= ((1 + u) ^ k - 1) * (Rabs (val s) + INR k * Rabs (val d)))) /\
  (forall k x y, nth_error v k = Some x -> nth_error v (S k) = Some y -> y = fadd x d) /\
  (fle s e = true -> nth_error v 0 = Some s) /\ (v <> [] -> fle (fadd (last v s) d) e = false).
Proof. intros H. apply seq_eval in H. split; [| split; [| split]].
  - intros k x X. destruct (loop_nth _ _ _ _ _ _ _ H X) as [-> L]. split. exact L. intros Fx. destruct (fold_err _ _ Fx) as (_ & _ & B). rewrite repeat_length in B. destruct (fold_repeat_exact d k) as [-> ->] in B. exact B.
  - intros k x y X Y. destruct (loop_nth _ _ _ _ _ _ _ H X) as [-> _]. destruct (loop_nth _ _ _ _ _ _ _ H Y) as [-> _]. clear. revert s. induction k; intros s. reflexivity. cbn [repeat fold_left] in *. apply IHk.
  - intros L. destruct fuel; cbn in H; rewrite L in H; try discriminate. destruct (seq64_loop fuel (fadd s d) e d) as [r | |]; try discriminate. cbn in H. injection H as <-. reflexivity.
  - intros NE. revert s v H NE. induction fuel as [| fuel IH]; intros s v H NE; cbn in H; destruct (fle s e) eqn:L; try discriminate; try (injection H as <-; congruence).
    destruct (seq64_loop fuel (fadd s d) e d) as [r | |] eqn:E; try discriminate. cbn in H. injection H as <-. destruct r as [| z r].
    + cbn. apply (loop_len _ _ _ _ _ E).
    + specialize (IH (fadd s d) (z :: r) E ltac:(discriminate)). rewrite <- IH. f_equal. f_equal. clear. change (last (s :: z :: r) s) with (last (z :: r) s). revert z. induction r as [| w r IHr]; intros z. reflexivity. change (last (z :: w :: r) s) with (last (w :: r) s). change (last (z :: w :: r) (fadd s d)) with (last (w :: r) (fadd s d)). apply IHr. Qed.
(** The loop ends when the step is not too small compared with the bounds. *)
Lemma loop_ends e d : fin e -> fin d -> 0 < val d -> forall fuel x, fin x -> (forall y, val x <= y <= val e -> 4 * u * Rabs y <= val d) ->
  val e - val x < INR fuel * (val d / 2) -> exists v, seq64_loop fuel x e d = Ret v.
Proof. intros Fe Fd D. induction fuel as [| fuel IH]; intros x Fx C L.
  - simpl in L. cbn. destruct (fle x e) eqn:K. apply fle_R in K; auto. lra. eauto.
  - cbn. destruct (fle x e) eqn:K; [| eauto]. apply fle_R in K; auto. destruct (is_finite (fadd x d)) eqn:F.
    + destruct (fadd_fin _ _ F) as (_ & _ & V & _). destruct (rnd_plus_err (val x) (val d) (val_fmt x) (val_fmt d)) as (a & Ha & R). pose proof (C (val x) ltac:(lra)) as CX. pose proof u_pos as U. pose proof u_small as US.
      assert (G : val x + val d / 2 <= val (fadd x d)).
      { rewrite V, R. assert (Rabs ((val x + val d) * a) <= (Rabs (val x) + val d) * u). { rewrite Rabs_mult. apply Rmult_le_compat; try apply Rabs_pos; auto. eapply Rle_trans. apply Rabs_triang. rewrite (Rabs_pos_eq (val d)) by lra. lra. }
        apply Rabs_le_inv in H. nra. }
      rewrite S_INR in L. destruct (IH (fadd x d) F) as [r E]. intros y Y. apply C. lra. lra. rewrite E. cbn. eauto.
    + assert (Q : fle (fadd x d) e = false). { pose proof (Bplus_correct 53 1024 _ _ mode_NE x d Fx Fd) as B. revert B. case Rlt_bool_spec; intros _ B.
        destruct B as (_ & B & _). unfold fadd in F. congruence. destruct B as [B SG]. assert (SD : Bsign d = false). { destruct d as [t | t | | t m x0 b]; try discriminate Fd. unfold val in D. simpl in D. lra. destruct t; auto. exfalso. unfold val in D. simpl in D. pose proof (F2R_lt_0 radix2 (Float radix2 (Zneg m) x0)) as Z. simpl in Z. specialize (Z eq_refl). lra. }
        rewrite SG, SD in B. unfold fle, Bleb, fadd. rewrite B. destruct e as [t | t | | t m x0 b]; try discriminate Fe; destruct t; reflexivity. }
      destruct fuel; cbn; rewrite Q; cbn; eauto. Qed.
Theorem seq_terminates s e d : fin s -> fin e -> fin d -> 0 < val d -> (forall y, val s <= y <= val e -> 4 * u * Rabs y <= val d) ->
  exists fuel, forall fuel', (fuel <= fuel')%nat -> seq64 fuel' s e d = Panic \/ exists v, seq64 fuel' s e d = Ret v.
Proof. intros S E D P C. assert (N : exists k, (val e - val s) < INR k * (val d / 2)).
  { destruct (archimed ((val e - val s) / (val d / 2))) as [A _]. exists (Z.to_nat (up ((val e - val s) / (val d / 2)))). apply Rmult_lt_reg_r with (/ (val d / 2)). apply Rinv_0_lt_compat; lra. rewrite Rmult_assoc, Rinv_r, Rmult_1_r by lra. apply Rlt_le_trans with (1 := A).
    rewrite INR_IZR_INZ. apply IZR_le. lia. }
  destruct N as [k K]. exists k. intros f F. assert (K' : val e - val s < INR f * (val d / 2)). { apply Rlt_le_trans with (1 := K). apply Rmult_le_compat_r. lra. apply le_INR, F. }
  destruct (loop_ends e d E D P f s S C K') as [v V]. unfold seq64. destruct (to_usize (fdiv (fsub e s) d)); [| left; reflexivity]. cbn [unwrap bind]. destruct (z * 8 <? 2 ^ 63)%Z; [right; eauto | left; reflexivity]. Qed.
(** When the step is absorbed by the rounding the loop never ends. *)
Theorem seq_diverges s e d k : (forall j, (j <= k)%nat -> fle (fold_left fadd (repeat d j) s) e = true) -> fadd (fold_left fadd (repeat d k) s) d = fold_left fadd (repeat d k) s ->
  forall fuel v, seq64 fuel s e d <> Ret v.
Proof. intros L A fuel v H. apply seq_eval in H. pose proof (loop_len _ _ _ _ _ H) as E. assert (AA : forall j, fle (fold_left fadd (repeat d j) s) e = true).
  { intros j. destruct (Nat.le_gt_cases j k) as [J | J]. apply L, J. replace (fold_left fadd (repeat d j) s) with (fold_left fadd (repeat d k) s). apply L. lia.
    replace j with (k + (j - k))%nat by lia. rewrite repeat_app, fold_left_app. generalize (j - k)%nat. intros m. induction m as [| m IH]. reflexivity. cbn [repeat fold_left]. rewrite A. exact IH. }
  rewrite AA in E. discriminate. Qed.
Theorem seq_terminates_refuted : exists s e d, fin s /\ fin e /\ fin d /\ flt zero d = true /\ flt s e = true /\ forall fuel, seq64 fuel s e d = NoFuel.
Proof. exists (lit 1 53), (lit (2 ^ 53 + 2) 0), (lit 1 (-1)). repeat split.
  intros fuel. assert (A : fadd (lit 1 53) (lit 1 (-1)) = lit 1 53) by (apply same; vm_compute; reflexivity).
  assert (L : fle (lit 1 53) (lit (2 ^ 53 + 2) 0) = true) by (vm_compute; reflexivity).
  rewrite (seq_runs fuel _ _ _ 4) by (vm_compute; reflexivity).
  induction fuel as [| fuel IH]; cbn [seq64_loop]; rewrite L. reflexivity. rewrite A, IH. reflexivity. Qed.
(** A zero step is rejected. *)
Theorem seq_zero_step fuel s e z : seq64 fuel s e (B754_zero z) = Panic.
Proof. unfold seq64. destruct (fsub e s) as [t | t | | t m x b]; reflexivity. Qed.
Lemma loop_fuel e d : forall f x r, seq64_loop f x e d = Ret r -> forall f', (f <= f')%nat -> seq64_loop f' x e d = Ret r.
Proof. induction f as [| f IH]; intros x r H f' F; cbn [seq64_loop] in H; destruct (fle x e) eqn:L; try discriminate.
  - destruct f'; cbn [seq64_loop]; rewrite L; exact H.
  - destruct f' as [| f']; [lia |]. cbn [seq64_loop]. rewrite L. destruct (seq64_loop f (fadd x d) e d) as [w | |] eqn:W; try discriminate. rewrite (IH _ _ W) by lia. exact H.
  - destruct f'; cbn [seq64_loop]; rewrite L; exact H. Qed.
(** Rounding may add an element that exceeds the end in exact arithmetic. *)
Theorem seq_count_refuted : exists s e d v, (forall fuel, (20 <= fuel)%nat -> seq64 fuel s e d = Ret v) /\ length v = 11%nat /\ val e < val s + 10 * val d.
Proof. exists zero, one, tenth. assert (K : match seq64 20 zero one tenth with Ret w => length w | _ => 0%nat end = 11%nat) by (vm_compute; reflexivity).
  destruct (seq64 20 zero one tenth) as [v | |] eqn:E; [| discriminate | discriminate].
  exists v. split; [| split].
  - intros fuel FU. pose proof (seq_eval _ _ _ _ _ E) as E'. rewrite (seq_runs fuel _ _ _ 10) by (vm_compute; reflexivity). apply (loop_fuel _ _ _ _ _ E' _ FU).
  - exact K.
  - destruct one_R as [_ ->]. change (val zero) with 0. unfold val, tenth.
    assert (T : fmt (IZR 3602879701896397 * bpow radix2 (-55))). { apply generic_format_FLT. exists (Float radix2 3602879701896397 (-55)). reflexivity. cbn. reflexivity. cbn. discriminate. }
    destruct (lit_R 3602879701896397 (-55)) as [_ V]. { rewrite rnd_id by exact T. rewrite Rabs_pos_eq. apply Rle_lt_trans with 1. change (bpow radix2 (-55)) with (/ IZR (2 ^ 55)). apply Rmult_le_reg_r with (IZR (2 ^ 55)). apply IZR_lt; reflexivity. rewrite Rmult_assoc, Rinv_l, Rmult_1_r, Rmult_1_l. apply IZR_le. cbn. discriminate. apply not_0_IZR. discriminate. change 1 with (bpow radix2 0). apply bpow_lt. reflexivity. apply Rmult_le_pos. apply IZR_le. discriminate. apply bpow_ge_0. }
    unfold val in V. rewrite V, rnd_id by exact T. change (bpow radix2 (-55)) with (/ IZR (2 ^ 55)). apply Rmult_lt_reg_r with (IZR (2 ^ 55)). apply IZR_lt; reflexivity. replace ((0 + 10 * (3602879701896397 * / IZR (2 ^ 55))) * IZR (2 ^ 55)) with (IZR (10 * 3602879701896397)) by (rewrite mult_IZR; field; apply not_0_IZR; discriminate). rewrite Rmult_1_l. apply IZR_lt. reflexivity. Qed.

Print Assumptions linspace_total.
Print Assumptions linspace64_one.
Print Assumptions linspace64_spec.
Print Assumptions linspace_end_refuted.
Print Assumptions linspace_overflow_refuted.
Print Assumptions seq_elements.
Print Assumptions seq_terminates.
Print Assumptions seq_diverges.
Print Assumptions seq_terminates_refuted.
Print Assumptions seq_zero_step.
Print Assumptions seq_count_refuted.

(** Non-vacuity *)
Definition shown (r : res (list f64)) : option (list SpecFloat.spec_float) := match r with Ret v => Some (map B2SF v) | _ => None end.
Example linspace_case : shown (linspace64 zero two 5) = Some (map B2SF [zero; lit 1 (-1); one; lit 3 (-1); two]) /\ flt zero two = true /\ fin (fsub two zero).
Proof. split. vm_compute. reflexivity. split; vm_compute; reflexivity. Qed.
Example seq_case : shown (seq64 9 zero two (lit 1 (-1))) = Some (map B2SF [zero; lit 1 (-1); one; lit 3 (-1); two]).
Proof. vm_compute. reflexivity. Qed.
Example seq_terminates_case : forall y, val zero <= y <= val two -> 4 * u * Rabs y <= val one.
Proof. destruct one_R as [_ ->], two_R as [_ ->]. change (val zero) with 0. intros y Y. rewrite Rabs_pos_eq by lra. assert (u <= / 8). { unfold u. apply Rinv_le_contravar. lra. apply IZR_le. cbn. discriminate. } pose proof u_pos. nra. Qed.
