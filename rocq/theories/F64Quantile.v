(** C94: quantiles of binary64 vectors. *)
From Coq Require Import ZArith Reals Lra Lia List Bool Psatz Permutation Sorting.Sorted.
From Flocq Require Import Core.Core IEEE754.BinarySingleNaN Relative Plus_error Sterbenz.
From Verif Require Import Res F64Model F64Base F64Sum F64Order.
Import ListNotations.
Open Scope R_scope.

Notation predF := (pred radix2 F).
Lemma bpow_m53 : bpow radix2 (-53) = u. Proof. reflexivity. Qed.
Lemma pred_one x : fmt x -> x < 1 -> x <= 1 - u.
Proof. intros X L. assert (O : fmt 1) by (apply (int_fmt 1); cbn; discriminate). pose proof (pred_ge_gt radix2 F x 1 X O L) as P.
  replace (predF 1) with (1 - u) in P. exact P. change 1 with (bpow radix2 0) at 2. rewrite pred_bpow. reflexivity. Qed.
(** Rounding a product with a factor of at most [1 - u] does not reach a normal number. *)
Lemma shrink d f : fmt d -> bpow radix2 (-1021) < d -> 0 <= f <= 1 - u -> rnd (d * f) <= predF d.
Proof. intros D L Hf. assert (D0 : 0 < d). { pose proof (bpow_gt_0 radix2 (-1021)). lra. }
  assert (PG : bpow radix2 (-1021) <= predF d). { apply pred_ge_gt; try typeclasses eauto; auto. apply generic_format_bpow. cbn. discriminate. }
  assert (P0 : 0 < predF d) by (pose proof (bpow_gt_0 radix2 (-1021)); lra).
  pose proof (pred_plus_ulp radix2 F d D0 D) as U. pose proof (ulp_FLT_le radix2 (-1074) 53 (predF d)) as UL.
  assert (UL' : ulp radix2 F (predF d) <= predF d * (2 * u)).
  { rewrite Rabs_pos_eq in UL by lra. change (2 * u) with (2 * bpow radix2 (-53)). change 2 with (bpow radix2 1). rewrite <- bpow_plus. apply UL. apply Rle_trans with (2 := PG). apply bpow_le. discriminate. }
  apply round_N_le_midp. typeclasses eauto. apply generic_format_pred; auto. typeclasses eauto. rewrite succ_pred by (auto; typeclasses eauto).
  assert (d * f <= d * (1 - u)) by (apply Rmult_le_compat_l; lra). assert (predF d < d) by (apply pred_lt_id; lra). pose proof u_pos. nra. Qed.
(** Interpolating with a weight of at most [1 - u] stays between the end points. *)
Lemma seg_between lo hi f : fmt lo -> fmt hi -> lo <= hi -> 0 <= f <= 1 - u -> fmt f ->
  0 <= rnd (rnd (hi - lo) * f) <= hi - lo /\ lo <= rnd (lo + rnd (rnd (hi - lo) * f)) <= hi.
Proof. intros L H O Hf Ff. set (d := rnd (hi - lo)). assert (D0 : 0 <= d). { apply rnd_ge. apply generic_format_0. lra. }
  assert (W0 : 0 <= rnd (d * f)). { apply rnd_ge. apply generic_format_0. nra. }
  assert (W : rnd (d * f) <= hi - lo).
  { destruct (Rle_or_lt d (hi - lo)) as [K | K].
    - apply Rle_trans with (2 := K). apply rnd_le_fmt. apply rnd_fmt. pose proof u_pos. nra.
    - assert (N : bpow radix2 (-1021) < d).
      { destruct (Rlt_or_le (bpow radix2 (-1021)) d) as [N | N]; auto. exfalso. assert (E : d = hi - lo). 2: lra. apply rnd_id. apply (FLT_format_plus_small radix2 (-1074) 53 hi (- lo)); auto. apply fmt_opp, L.
        change (hi + - lo) with (hi - lo). rewrite Rabs_pos_eq by lra. change (53 + -1074)%Z with (-1021)%Z. lra. }
      apply Rle_trans with (predF d). apply shrink; auto. apply rnd_fmt.
      destruct (Rle_or_lt (predF d) (hi - lo)) as [Q | Q]; auto. exfalso. assert (d <= predF d). { apply rnd_le_fmt. apply generic_format_pred. typeclasses eauto. apply rnd_fmt. lra. }
      assert (predF d < d). { apply pred_lt_id. pose proof (bpow_gt_0 radix2 (-1021)). lra. } lra. }
  split. auto. split. apply rnd_ge; auto. lra. apply rnd_le_fmt; auto. lra. Qed.

(** floor and ceiling *)
Lemma floor_R x : fin x -> fin (ffloor x) /\ val (ffloor x) = IZR (Zfloor (val x)).
Proof. intros X. destruct (Bnearbyint_correct 53 1024 _ mode_DN x) as (A & B & _). split. unfold fin, ffloor. rewrite B. exact X. unfold val, ffloor. rewrite A. apply round_FIX_IZR. Qed.
Lemma ceil_R x : fin x -> fin (fceil x) /\ val (fceil x) = IZR (Zceil (val x)).
Proof. intros X. destruct (Bnearbyint_correct 53 1024 _ mode_UP x) as (A & B & _). split. unfold fin, fceil. rewrite B. exact X. unfold val, fceil. rewrite A. apply round_FIX_IZR. Qed.
Lemma usize_of_int x z : fin x -> val x = IZR z -> (0 <= z < 2 ^ 64)%Z -> as_usize x = z.
Proof. intros X V Z. assert (T : Btrunc x = z). { apply eq_IZR. rewrite Btrunc_correct, round_FIX_IZR. unfold val in V. rewrite V, Ztrunc_IZR. reflexivity. typeclasses eauto. }
  unfold as_usize. destruct x as [s | s | | s m e b]; try discriminate X; rewrite T; lia. Qed.

Lemma unit_fin q : fle zero q = true -> fle q one = true -> fin q /\ 0 <= val q <= 1.
Proof. intros A B. assert (X : fin q). { destruct q as [s | s | | s m e b]; try reflexivity. destruct s; [discriminate A | discriminate B]. discriminate A. }
  apply (fle_R zero q eq_refl X) in A. destruct one_R as [O1 O2]. apply (fle_R q one X O1) in B. rewrite O2 in B. split; auto. Qed.

(** the position [q (n - 1)], rounded *)
Definition pos (n : nat) (q : f64) : R := rnd (val q * INR (n - 1)).
Lemma pos_bounds n q : small n -> 0 <= val q <= 1 -> 0 <= pos n q <= INR (n - 1).
Proof. intros S Q. pose proof (pos_INR (n - 1)). unfold pos. split. apply rnd_ge. apply generic_format_0. nra. apply rnd_le_fmt.
  rewrite INR_IZR_INZ. apply int_fmt. unfold small in S. lia. nra. Qed.
Lemma index_eval n q : small n -> fin q -> 0 <= val q <= 1 -> let index := fmul q (of_usize (n - 1)) in
  fin index /\ val index = pos n q /\ as_usize (ffloor index) = Zfloor (pos n q) /\ as_usize (fceil index) = Zceil (pos n q) /\
  (0 <= Zfloor (pos n q) <= Z.of_nat (n - 1))%Z /\ (0 <= Zceil (pos n q) <= Z.of_nat (n - 1))%Z.
Proof. intros S Fq Q index. assert (S1 : small (n - 1)) by (unfold small in *; lia). destruct (usize_R _ S1) as [F1 V1]. pose proof (pos_bounds n q S Q) as B.
  destruct (fmul_R q (of_usize (n - 1)) Fq F1) as [P R].
  - rewrite V1. fold (pos n q). apply (between_lt 0 (INR (n - 1))); auto. rewrite Rabs_R0. apply bpow_gt_0. rewrite <- V1. apply val_lt.
  - rewrite V1 in R. fold (pos n q) in R. assert (LO : (0 <= Zfloor (pos n q))%Z) by (apply Zfloor_lub; apply B).
    assert (HI : (Zceil (pos n q) <= Z.of_nat (n - 1))%Z) by (apply Zceil_glb; rewrite <- INR_IZR_INZ; apply B).
    assert (MID : (Zfloor (pos n q) <= Zceil (pos n q))%Z). { apply le_IZR. pose proof (Zfloor_lb (pos n q)). pose proof (Zceil_ub (pos n q)). lra. }
    unfold small in S1. assert ((2 ^ 53 < 2 ^ 64)%Z) by reflexivity.
    split. exact P. split. exact R. destruct (floor_R index P) as [A1 A2]. destruct (ceil_R index P) as [C1 C2]. unfold index in A2, C2. rewrite R in A2, C2.
    split. apply usize_of_int; auto; lia. split. apply usize_of_int; auto; lia. lia. Qed.

Definition below (n : nat) (q : f64) : nat := Z.to_nat (Zfloor (pos n q)).
Definition above (n : nat) (q : f64) : nat := Z.to_nat (Zceil (pos n q)).
Lemma quantile_eval l q s : fsort l = Ret s -> Permutation l s -> l <> [] -> small (length l) -> fle zero q = true -> fle q one = true ->
  exists lo hi, nth_error s (below (length l) q) = Some lo /\ nth_error s (above (length l) q) = Some hi /\
  quantile64 l q = Ret (fadd lo (fmul (fsub hi lo) (fsub (fmul q (of_usize (length l - 1))) (ffloor (fmul q (of_usize (length l - 1))))))).
Proof. intros E P NE S Q0 Q1. destruct (unit_fin q Q0 Q1) as [Fq Q]. destruct (index_eval (length l) q S Fq Q) as (A & V & FL & CE & BF & BC).
  assert (LEN : length s = length l) by (symmetry; apply (Permutation_length P)). assert (L1 : (1 <= length l)%nat) by (destruct l; [congruence | simpl; lia]).
  destruct (nth_ex s (below (length l) q)) as [lo LO]. { unfold below. rewrite LEN. lia. } destruct (nth_ex s (above (length l) q)) as [hi HI]. { unfold above. rewrite LEN. lia. }
  exists lo, hi. split. exact LO. split. exact HI. unfold quantile64. rewrite Q0, Q1. replace (nonempty l) with true by (destruct l; [congruence | reflexivity]). cbn [assertb andb]. rewrite E. cbn [bind]. rewrite LEN.
  rewrite FL, CE. fold (below (length l) q) (above (length l) q). unfold findex. rewrite LO, HI. reflexivity. Qed.

(** A quantile is computed without an index out of bounds, for vectors of up to [2^53] elements. *)
Theorem quantile_panics l q : small (length l) -> (quantile64 l q = Panic <-> l = [] \/ ~ (fle zero q = true /\ fle q one = true) \/ ((2 <= length l)%nat /\ Exists (fun x => ~ num x) l)).
Proof. intros S. destruct l as [| x l]. split; auto. set (l' := x :: l) in *. assert (NE : l' <> []) by discriminate. destruct (fle zero q) eqn:Q0.
  - destruct (fle q one) eqn:Q1.
    + destruct (sort_spec l') as [A B]. destruct (fsort l') as [s | |] eqn:E.
      * destruct B as (s' & E' & P & _). discriminate. injection E' as <-. destruct (quantile_eval l' q s E P NE S Q0 Q1) as (lo & hi & _ & _ & EV). rewrite EV. split. discriminate. intros [K | [K | K]]. contradiction. elim K; auto. apply A in K. discriminate.
      * unfold quantile64. rewrite Q0, Q1. cbn [l' nonempty length Nat.eqb negb assertb andb]. fold l'. rewrite E. split; auto. intros _. right; right. apply A. reflexivity.
      * destruct B as (s' & E' & _); discriminate.
    + unfold quantile64. rewrite Q0, Q1. split; auto. intros _. right; left. intros [_ K]. discriminate.
  - unfold quantile64. rewrite Q0. split; auto. intros _. right; left. intros [K _]. discriminate. Qed.

Definition no_overflow (l : list f64) : Prop := forall x y, In x l -> In y l -> fin (fsub x y).
Lemma no_overflow_fin l : no_overflow l -> Forall fin l.
Proof. intros H. apply Forall_forall. intros x X. apply (fsub_fin x x). apply H; assumption. Qed.

Lemma frac_facts n q : small n -> fin q -> 0 <= val q <= 1 -> let index := fmul q (of_usize (n - 1)) in
  fin (fsub index (ffloor index)) /\ val (fsub index (ffloor index)) = pos n q - IZR (Zfloor (pos n q)) /\ fmt (pos n q - IZR (Zfloor (pos n q))).
Proof. intros S Fq Q index. destruct (index_eval n q S Fq Q) as (A & V & _ & _ & BF & _). fold index in A, V. destruct (floor_R index A) as [F1 F2]. rewrite V in F2.
  set (t := pos n q) in *. pose proof (Zfloor_lb t) as L1. pose proof (Zfloor_ub t) as L2.
  assert (X : fmt (t - IZR (Zfloor t))).
  { destruct (Z.eq_dec (Zfloor t) 0) as [K | K]. rewrite K, Rminus_0_r. apply rnd_fmt.
    assert (1 <= IZR (Zfloor t)) by (apply (IZR_le 1); lia). apply sterbenz; try typeclasses eauto. apply rnd_fmt. rewrite <- F2. apply val_fmt. lra. }
  destruct (fsub_R index (ffloor index) A F1) as [P R].
  - rewrite V, F2, rnd_id by exact X. rewrite Rabs_pos_eq by lra. apply Rlt_trans with 1. lra. change 1 with (bpow radix2 0). apply bpow_lt. reflexivity.
  - split. exact P. split. rewrite R, V, F2. apply rnd_id, X. exact X. Qed.

Lemma quantile_core l q v : no_overflow l -> small (length l) -> quantile64 l q = Ret v ->
  exists s lo hi, Permutation l s /\ leb_sorted s /\ Forall fin s /\ fin q /\ 0 <= val q <= 1 /\ nth_error s (below (length l) q) = Some lo /\ nth_error s (above (length l) q) = Some hi /\ val lo <= val hi /\
  fin v /\ val lo <= val v <= val hi /\ val v = rnd (val lo + rnd (rnd (val hi - val lo) * (pos (length l) q - IZR (Zfloor (pos (length l) q))))).
Proof. intros NO S H. pose proof (no_overflow_fin l NO) as F.
  assert (NE : l <> []) by (intros ->; discriminate). assert (Q : fle zero q = true /\ fle q one = true). { unfold quantile64 in H. destruct (nonempty l); [| discriminate]. cbn [assertb] in H. destruct (fle zero q), (fle q one); try discriminate; auto. }
  destruct Q as [Q0 Q1]. destruct (unit_fin q Q0 Q1) as [Fq Q]. destruct (sort_num l) as (s & E & P & So). { eapply Forall_impl. 2: exact F. intros; apply fin_num; assumption. }
  destruct (quantile_eval l q s E P NE S Q0 Q1) as (lo & hi & LO & HI & EV). rewrite EV in H. injection H as <-. exists s, lo, hi.
  assert (Fs : Forall fin s). { rewrite Forall_forall in *. intros z Z. apply F. apply (Permutation_in _ (Permutation_sym P) Z). }
  assert (Ilo : In lo l) by (apply (Permutation_in _ (Permutation_sym P) (nth_error_In _ _ LO))). assert (Ihi : In hi l) by (apply (Permutation_in _ (Permutation_sym P) (nth_error_In _ _ HI))).
  rewrite Forall_forall in F. assert (Flo := F lo Ilo). assert (Fhi := F hi Ihi).
  set (t := pos (length l) q) in *. pose proof (Zfloor_lb t) as L1. pose proof (Zfloor_ub t) as L2. pose proof (Zceil_ub t) as L3.
  assert (O : val lo <= val hi). { apply fle_R; auto. apply (sorted_nth s So (below (length l) q) (above (length l) q)); auto. unfold below, above. fold t. apply Z2Nat.inj_le. apply Zfloor_lub. apply (pos_bounds _ _ S Q). apply le_IZR. pose proof (pos_bounds _ _ S Q). fold t in H. lra. apply le_IZR. lra. apply fin_num, Flo. }
  destruct (frac_facts (length l) q S Fq Q) as (FF & FV & FX). fold t in FV, FX. assert (FB : 0 <= t - IZR (Zfloor t) <= 1 - u). { split. lra. apply pred_one; auto. lra. }
  destruct (seg_between (val lo) (val hi) _ (val_fmt lo) (val_fmt hi) O FB FX) as [[W1 W2] W3].
  destruct (fsub_fin _ _ (NO hi lo Ihi Ilo)) as (_ & _ & DV & DB).
  assert (D0 : 0 <= rnd (val hi - val lo)) by (apply rnd_ge; [apply generic_format_0 | lra]). pose proof u_pos.
  assert (WB : rnd (rnd (val hi - val lo) * (t - IZR (Zfloor t))) <= rnd (val hi - val lo)) by (apply rnd_le_fmt; [apply rnd_fmt | nra]).
  destruct (fmul_R (fsub hi lo) _ (NO hi lo Ihi Ilo) FF) as [M1 M2]. { rewrite DV, FV. apply (between_lt 0 (rnd (val hi - val lo))); auto. rewrite Rabs_R0. apply bpow_gt_0. }
  rewrite DV, FV in M2. destruct (fadd_R lo _ Flo M1) as [A1 A2]. { rewrite M2. apply (between_lt (val lo) (val hi)); auto; apply val_lt. }
  rewrite M2 in A2. rewrite A2. repeat (split; [assumption |]). reflexivity. Qed.

(** A quantile lies between two neighbouring elements of the sorted vector, those at the rounded
    position [q (n - 1)], hence between the minimum and the maximum. *)
Theorem quantile_between l q v : no_overflow l -> small (length l) -> quantile64 l q = Ret v ->
  exists s t i j a b, Permutation l s /\ leb_sorted s /\ Rabs (t - val q * INR (length l - 1)) <= u * (val q * INR (length l - 1)) + eta /\
    INR i <= t <= INR j /\ (j <= S i)%nat /\ nth_error s i = Some a /\ nth_error s j = Some b /\ fin v /\ val a <= val v <= val b /\
    Rabs (val v - (val a + (val b - val a) * (t - INR i))) <= ((1 + u) ^ 2 - 1) * (val b - val a) + eta + u * Rabs (val v).
Proof. intros NO S H. destruct (quantile_core l q v NO S H) as (s & lo & hi & P & So & Fs & Fq & Q & LO & HI & O & Fv & B & V).
  exists s, (pos (length l) q), (below (length l) q), (above (length l) q), lo, hi. set (t := pos (length l) q) in *. pose proof (Zfloor_lb t) as L1. pose proof (Zfloor_ub t) as L2. pose proof (Zceil_ub t) as L3.
  pose proof (pos_bounds _ _ S Q) as PB. fold t in PB. assert (Z0 : (0 <= Zfloor t)%Z) by (apply Zfloor_lub; lra). assert (Z1 : (Zfloor t <= Zceil t)%Z) by (apply le_IZR; lra).
  assert (Z2 : (Zceil t <= Zfloor t + 1)%Z). { apply Zceil_glb. rewrite plus_IZR. lra. }
  assert (I1 : INR (below (length l) q) = IZR (Zfloor t)). { unfold below. fold t. rewrite INR_IZR_INZ, Z2Nat.id by lia. reflexivity. }
  assert (I2 : INR (above (length l) q) = IZR (Zceil t)). { unfold above. fold t. rewrite INR_IZR_INZ, Z2Nat.id by lia. reflexivity. }
  rewrite I1, I2. split. exact P. split. exact So. split.
  { destruct (rnd_err (val q * INR (length l - 1))) as (e & h & He & Hh & R). unfold t, pos. rewrite R. set (w := val q * INR (length l - 1)). assert (0 <= w) by (apply Rmult_le_pos; [apply Q | apply pos_INR]).
    replace (w * (1 + e) + h - w) with (w * e + h) by ring. eapply Rle_trans. apply Rabs_triang. rewrite Rabs_mult, (Rabs_pos_eq w) by assumption. apply Rplus_le_compat. rewrite Rmult_comm. apply Rmult_le_compat_r; assumption. assumption. }
  split. lra. split. unfold above, below. fold t. lia. split. exact LO. split. exact HI. split. exact Fv. split. exact B.
  set (f := t - IZR (Zfloor t)) in *. set (w := rnd (rnd (val hi - val lo) * f)) in *.
  destruct (FLT_plus_error_N_round_ex radix2 (-1074) 53 (fun z => negb (Z.even z)) (val lo) w (val_fmt lo) (rnd_fmt _)) as (e3 & H3 & R3). rewrite u_ro_u in H3. fold (rnd (val lo + w)) in R3. rewrite <- V in R3.
  destruct (rnd_minus_err (val hi) (val lo) (val_fmt hi) (val_fmt lo)) as (e1 & H1 & R1). destruct (rnd_err (rnd (val hi - val lo) * f)) as (e2 & h & H2 & Hh & R2). fold w in R2. rewrite R1 in R2.
  assert (f01 : 0 <= f <= 1) by (unfold f; lra). set (d := val hi - val lo) in *.
  replace (val v - (val lo + d * f)) with (d * (f * (e1 + e2 + e1 * e2)) + h + - (val v * e3)). 2: { replace (val v * e3) with (val lo + w - val v) by lra. rewrite R2. ring. }
  eapply Rle_trans. apply Rabs_triang. rewrite Rabs_Ropp, Rabs_mult. apply Rplus_le_compat. 2: { rewrite Rmult_comm. apply Rmult_le_compat_r. apply Rabs_pos. exact H3. }
  eapply Rle_trans. apply Rabs_triang. apply Rplus_le_compat. 2: exact Hh. assert (0 <= d) by (unfold d; lra). rewrite Rabs_mult, (Rabs_pos_eq d), Rmult_comm by assumption. apply Rmult_le_compat_r. assumption.
  pose proof u_pos. rewrite Rabs_mult, (Rabs_pos_eq f) by lra. assert (E : Rabs (e1 + e2 + e1 * e2) <= u + u + u * u).
  { eapply Rle_trans. apply Rabs_triang. apply Rplus_le_compat. eapply Rle_trans. apply Rabs_triang. lra. rewrite Rabs_mult. apply Rmult_le_compat; try apply Rabs_pos; assumption. }
  pose proof (Rabs_pos (e1 + e2 + e1 * e2)). simpl. nra. Qed.
Theorem quantile_range l q v : no_overflow l -> small (length l) -> quantile64 l q = Ret v -> exists a b, In a l /\ In b l /\ val a <= val v <= val b.
Proof. intros NO S H. destruct (quantile_core l q v NO S H) as (s & lo & hi & P & _ & _ & _ & _ & LO & HI & _ & _ & B & _). exists lo, hi.
  split. apply (Permutation_in _ (Permutation_sym P) (nth_error_In _ _ LO)). split. apply (Permutation_in _ (Permutation_sym P) (nth_error_In _ _ HI)). exact B. Qed.
(** Quantiles do not decrease with the level, in spite of the rounding. *)
Lemma sorted_val s : leb_sorted s -> Forall fin s -> forall i j a b, (i <= j)%nat -> nth_error s i = Some a -> nth_error s j = Some b -> val a <= val b.
Proof. intros So Fs i j a b L A B. rewrite Forall_forall in Fs. assert (Fa := Fs a (nth_error_In _ _ A)). assert (Fb := Fs b (nth_error_In _ _ B)). apply fle_R; auto. apply (sorted_nth s So i j); auto. apply fin_num, Fa. Qed.
Lemma sorted_perm_val s s' : leb_sorted s -> leb_sorted s' -> Forall fin s -> Permutation s s' -> forall i a b, nth_error s i = Some a -> nth_error s' i = Some b -> val a = val b.
Proof. revert s'. induction s as [| x s IH]; intros s' S S' Fs P i a b A B. destruct i; discriminate.
  destruct s' as [| y s']. destruct i; discriminate B. assert (Fs' : Forall fin (y :: s')). { rewrite Forall_forall in *. intros z Z. apply Fs. apply (Permutation_in _ (Permutation_sym P) Z). }
  assert (XY : val x = val y). { apply Rle_antisym.
    - assert (I : In y (x :: s)) by (apply (Permutation_in _ (Permutation_sym P)); left; reflexivity). apply In_nth_error in I. destruct I as [k K]. apply (sorted_val (x :: s) S Fs 0 k); auto. lia.
    - assert (I : In x (y :: s')) by (apply (Permutation_in _ P); left; reflexivity). apply In_nth_error in I. destruct I as [k K]. apply (sorted_val (y :: s') S' Fs' 0 k); auto. lia. }
  destruct i; simpl in A, B. congruence.
  (* counts below each threshold agree *)
  assert (CT : forall c, count (fun z => Rle_bool (val z) c) s = count (fun z => Rle_bool (val z) c) s').
  { intros c. pose proof (count_perm (fun z => Rle_bool (val z) c) _ _ P) as K. simpl in K. rewrite XY in K. lia. }
  assert (CT' : forall c, count (fun z => Rle_bool c (val z)) s = count (fun z => Rle_bool c (val z)) s').
  { intros c. pose proof (count_perm (fun z => Rle_bool c (val z)) _ _ P) as K. simpl in K. rewrite XY in K. lia. }
  assert (LE : forall r r' n c d, length r = length r' -> leb_sorted r -> leb_sorted r' -> Forall fin r -> Forall fin r' -> (forall k, count (fun z => Rle_bool (val z) k) r = count (fun z => Rle_bool (val z) k) r') -> nth_error r n = Some c -> nth_error r' n = Some d -> val c <= val d).
  { clear. intros r r' n c d LEN Sr Sr' Fr Fr' C N N'. destruct (Rle_or_lt (val c) (val d)) as [K | K]; auto. exfalso.
    assert (n < length r)%nat by (apply nth_error_Some; congruence).
    assert (n + 1 <= count (fun z => Rle_bool (val z) (val d)) r')%nat. { apply count_firstn. lia. intros i z I Z. apply Rle_bool_true. apply (sorted_val r' Sr' Fr' i n); auto. lia. }
    assert (length r - n <= count (fun z => negb (Rle_bool (val z) (val d))) r)%nat. { apply count_skipn. lia. intros i z I Z. rewrite Rle_bool_false. reflexivity. apply Rlt_le_trans with (1 := K). apply (sorted_val r Sr Fr n i); auto. }
    assert (T : forall w : list f64, (count (fun z => Rle_bool (val z) (val d)) w + count (fun z => negb (Rle_bool (val z) (val d))) w = length w)%nat). { induction w; simpl; auto. destruct (Rle_bool (val a) (val d)); simpl; lia. }
    specialize (T r). rewrite C in T. lia. }
  inversion S; inversion S'; inversion Fs; inversion Fs'; subst. pose proof (Permutation_length P) as PL. simpl in PL.
  apply Rle_antisym; [eapply (LE s s') | eapply (LE s' s)]; eauto; lia. Qed.
Theorem quantile_monotone l q q' v v' : no_overflow l -> small (length l) -> quantile64 l q = Ret v -> quantile64 l q' = Ret v' -> val q <= val q' -> val v <= val v'.
Proof. intros NO S H H' L. destruct (quantile_core l q v NO S H) as (s & lo & hi & P & So & Fs & Fq & Q & LO & HI & O & Fv & B & V).
  destruct (quantile_core l q' v' NO S H') as (s' & lo' & hi' & P' & So' & Fs' & Fq' & Q' & LO' & HI' & O' & Fv' & B' & V').
  assert (PP : Permutation s s') by (rewrite <- P; exact P'). assert (T : pos (length l) q <= pos (length l) q'). { apply rnd_le. apply Rmult_le_compat_r. apply pos_INR. exact L. }
  set (t := pos (length l) q) in *. set (t' := pos (length l) q') in *.
  assert (ZL : (Zfloor t <= Zfloor t')%Z) by (apply Zfloor_le; exact T).
  pose proof (pos_bounds _ _ S Q) as PB. fold t in PB. assert (Z0 : (0 <= Zfloor t)%Z) by (apply Zfloor_lub; lra).
  destruct (Z.eq_dec (Zfloor t) (Zfloor t')) as [E | E].
  - assert (ELO : val lo = val lo'). { apply (sorted_perm_val s s' So So' Fs PP (below (length l) q)); auto. unfold below in *. fold t in LO |- *. fold t' in LO'. rewrite E. exact LO'. }
    rewrite V, V'. rewrite <- ELO, <- E. pose proof (Zfloor_lb t). pose proof (Zfloor_ub t). pose proof (Zfloor_lb t'). pose proof (Zfloor_ub t').
    assert (HH : val hi <= val hi'). { pose proof LO' as K. rewrite <- ELO in O'. destruct (nth_ex s' (above (length l) q)) as [h' Hh']. rewrite <- (Permutation_length PP). apply nth_error_Some. congruence.
      rewrite (sorted_perm_val s s' So So' Fs PP _ _ _ HI Hh'). apply (sorted_val s' So' Fs' (above (length l) q) (above (length l) q')); auto. unfold above. fold t t'. apply Z2Nat.inj_le.
      apply le_IZR. pose proof (Zceil_ub t). lra. apply le_IZR. pose proof (Zceil_ub t'). lra. apply Zceil_le. exact T. }
    apply rnd_le, Rplus_le_compat_l, rnd_le. assert (0 <= rnd (val hi - val lo)) by (apply rnd_ge; [apply generic_format_0 | lra]).
    assert (rnd (val hi - val lo) <= rnd (val hi' - val lo)) by (apply rnd_le; lra). apply Rmult_le_compat; lra.
  - apply Rle_trans with (val hi). apply B. apply Rle_trans with (val lo'). 2: apply B'. destruct (nth_ex s' (above (length l) q)) as [h' Hh']. rewrite <- (Permutation_length PP). apply nth_error_Some. congruence.
    rewrite (sorted_perm_val s s' So So' Fs PP _ _ _ HI Hh'). apply (sorted_val s' So' Fs' (above (length l) q) (below (length l) q')); auto. unfold above, below. fold t t'. pose proof (Zceil_ub t).
    apply Z2Nat.inj_le. apply le_IZR. lra. lia. apply Zceil_glb. pose proof (Zfloor_ub t). assert (IZR (Zfloor t) + 1 <= IZR (Zfloor t')) by (rewrite <- plus_IZR; apply IZR_le; lia). lra. Qed.
(** The quantiles of levels zero and one are the minimum and the maximum. *)
Theorem quantile_ends l v w : no_overflow l -> small (length l) -> quantile64 l zero = Ret v -> quantile64 l one = Ret w ->
  (forall x, In x l -> val v <= val x <= val w) /\ (exists a b, In a l /\ In b l /\ val a = val v /\ val b = val w).
Proof. intros NO S H H'. destruct (quantile_core l zero v NO S H) as (s & lo & hi & P & So & Fs & _ & _ & LO & HI & O & Fv & B & V).
  destruct (quantile_core l one w NO S H') as (s' & lo' & hi' & P' & So' & Fs' & _ & _ & LO' & HI' & O' & Fv' & B' & V').
  assert (T : pos (length l) zero = 0). { unfold pos. change (val zero) with 0. rewrite Rmult_0_l. apply rnd_0. }
  assert (T' : pos (length l) one = IZR (Z.of_nat (length l - 1))). { unfold pos. destruct one_R as [_ ->]. rewrite Rmult_1_l, INR_IZR_INZ. apply rnd_id, int_fmt. unfold small in S. lia. }
  unfold below, above in LO, HI, LO', HI'. rewrite T in LO, HI. rewrite T' in LO', HI'. change 0 with (IZR 0) in LO, HI. rewrite Zfloor_IZR in LO, LO'. rewrite Zceil_IZR in HI, HI'. rewrite LO in HI. injection HI as <-. rewrite LO' in HI'. injection HI' as <-. rewrite Nat2Z.id in LO'.
  assert (val v = val lo) by lra. assert (val w = val lo') by lra. split.
  - intros x X. split.
    + pose proof (Permutation_in _ P X) as I. apply In_nth_error in I. destruct I as [k K]. rewrite H0. apply (sorted_val s So Fs 0 k); auto. lia.
    + pose proof (Permutation_in _ P' X) as I. apply In_nth_error in I. destruct I as [k K]. rewrite H1. apply (sorted_val s' So' Fs' k (length l - 1)); auto. rewrite (Permutation_length P'). assert (k < length s')%nat by (apply nth_error_Some; congruence). lia.
  - exists lo, lo'. split. apply (Permutation_in _ (Permutation_sym P) (nth_error_In _ _ LO)). split. apply (Permutation_in _ (Permutation_sym P') (nth_error_In _ _ LO')). auto. Qed.
(** Without the condition on differences the quantile of finite numbers may be infinite. *)
Theorem quantile_overflow_refuted : exists l q, Forall fin l /\ fin q /\ quantile64 l q = Ret pinf.
Proof. exists [lit (- (2 ^ 53 - 1)) 971; fmaxv], (lit 1 (-1)). split. repeat constructor. split. reflexivity. apply same_res. vm_compute. reflexivity. Qed.

Print Assumptions quantile_panics.
Print Assumptions quantile_between.
Print Assumptions quantile_range.
Print Assumptions quantile_monotone.
Print Assumptions quantile_ends.
Print Assumptions quantile_overflow_refuted.

(** Non-vacuity *)
Example quantile_case : quantile64 [lit 6 0; one; two; lit 9 0] (lit 1 (-1)) = Ret (lit 4 0) /\ quantile64 [lit 6 0; one; two; lit 9 0] (lit 1 (-2)) = Ret (lit 7 (-2)) /\ small 4.
Proof. split. apply same_res; vm_compute; reflexivity. split. apply same_res; vm_compute; reflexivity. unfold small. cbn. discriminate. Qed.
Example no_overflow_case : no_overflow [lit 6 0; one; two; lit 9 0].
Proof. intros x y X Y. destruct X as [<- | [<- | [<- | [<- | []]]]]; destruct Y as [<- | [<- | [<- | [<- | []]]]]; vm_compute; reflexivity. Qed.
