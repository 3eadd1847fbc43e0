(** C96: linear interpolation with binary64 arithmetic. *)
From Coq Require Import ZArith Reals Lra Lia List Bool Psatz Sorting.Sorted.
From Flocq Require Import Core.Core IEEE754.BinarySingleNaN Relative Plus_error.
From Verif Require Import Res F64Model F64Base F64Sum F64Order F64Quantile.
Import ListNotations.
Open Scope R_scope.

Definition increasing (xs : list f64) : Prop := Forall fin xs /\ forall i j a b, (i < j)%nat -> nth_error xs i = Some a -> nth_error xs j = Some b -> val a < val b.

Lemma find_spec p xs : fin p -> Forall fin xs -> exists r, find64 p xs = Ret r /\
  match r with Some i => exists a, nth_error xs i = Some a /\ val a = val p | None => forall a, In a xs -> val a <> val p end.
Proof. intros P. induction 1 as [| a xs A H IH]. exists None. split. reflexivity. intros a []. destruct IH as (r & E & R). cbn [find64]. rewrite (fcmp_R a p A P). cbn [unwrap bind].
  case Rcompare_spec; intros K.
  - rewrite E. cbn. exists (option_map S r). split. reflexivity. destruct r; cbn. exact R. intros b [<- | B]. lra. apply R, B.
  - exists (Some 0%nat). split. reflexivity. exists a. auto.
  - rewrite E. cbn. exists (option_map S r). split. reflexivity. destruct r; cbn. exact R. intros b [<- | B]. lra. apply R, B. Qed.
Lemma ppoint_spec p xs : fin p -> increasing xs -> (forall i a, nth_error xs i = Some a -> ((i < ppoint64 p xs)%nat <-> val a < val p)) /\ (ppoint64 p xs <= length xs)%nat.
Proof. intros P. induction xs as [| x xs IH]; intros [F I]. split. intros i a A. destruct i; discriminate. simpl. lia. inversion F as [| ? ? X F']; subst.
  assert (INC : increasing xs). { split. exact F'. intros i j a b L A B. apply (I (S i) (S j)); auto. lia. } destruct (IH INC) as [R L]. cbn [ppoint64 length]. destruct (flt x p) eqn:C.
  - apply flt_R in C; auto. split. intros i a A. destruct i; simpl in A. injection A as <-. split; [auto | lia]. rewrite <- (R i a A). lia. lia.
  - split. 2: lia. intros i a A. split. lia. intros K. exfalso. assert (N : ~ val x < val p) by (intros Q; apply flt_R in Q; auto; congruence). destruct i; simpl in A. injection A as <-. contradiction. pose proof (I 0%nat (S i) x a ltac:(lia) eq_refl A). lra. Qed.

(** The interpolator distinguishes the four cases: a NaN panics, a point outside is refused, a knot
    returns its ordinate, any other point uses the segment that contains it. *)
Lemma cmp_nan_l p x : ~ num p -> fcmp p x = None. Proof. intros H. apply fcmp_nan. auto. Qed.
Theorem interp64_cases xs ys p lo hi : increasing xs -> length ys = length xs -> nth_error xs 0 = Some lo -> nth_error xs (length xs - 1) = Some hi ->
  (~ num p /\ interpolate64 xs ys p = Panic) \/
  (num p /\ (flt p lo = true \/ flt hi p = true) /\ interpolate64 xs ys p = Ret None) \/
  (fin p /\ exists i x y, nth_error xs i = Some x /\ nth_error ys i = Some y /\ val x = val p /\ interpolate64 xs ys p = Ret (Some y)) \/
  (fin p /\ exists i xl xr yl yr, nth_error xs i = Some xl /\ nth_error xs (S i) = Some xr /\ nth_error ys i = Some yl /\ nth_error ys (S i) = Some yr /\ val xl < val p < val xr /\ interpolate64 xs ys p = Ret (Some (segment64 xl xr yl yr p))).
Proof. intros INC LEN LO HI. assert (HD : hd_error xs = Some lo) by (destruct xs; [discriminate | exact LO]). assert (FX := proj1 INC). rewrite Forall_forall in FX. assert (Flo := FX lo (nth_error_In _ _ LO)). assert (Fhi := FX hi (nth_error_In _ _ HI)).
  unfold interpolate64. rewrite HD, HI. cbn [unwrap bind]. destruct (num_dec p) as [N | N].
  2: { left. split. exact N. rewrite cmp_nan_l by exact N. reflexivity. } right.
  rewrite (fcmp_ext p lo N (fin_num lo Flo)), (fcmp_ext p hi N (fin_num hi Fhi)). cbn [unwrap bind].
  destruct (Rlt_or_le (ext p) (ext lo)) as [A | A]. { left. split. exact N. split. left. apply flt_ext; auto. apply fin_num, Flo. rewrite (Rcompare_Lt _ _ A). reflexivity. }
  destruct (Rlt_or_le (ext hi) (ext p)) as [B | B]. { left. split. exact N. split. right. apply flt_ext; auto. apply fin_num, Fhi. rewrite (Rcompare_Gt (ext p) (ext hi)) by exact B. destruct (Rcompare (ext p) (ext lo)); reflexivity. }
  right. rewrite (ext_fin lo Flo) in *. rewrite (ext_fin hi Fhi) in *. assert (P : fin p). { destruct p as [s | s | | s m e b]; try reflexivity; try discriminate N. pose proof (val_lt lo) as L1. pose proof (val_lt hi) as L2. apply Rabs_def2 in L1, L2. destruct s; simpl in A, B; lra. }
  rewrite (ext_fin p P) in *. 
  destruct (find_spec p xs P (proj1 INC)) as (r & E & R). rewrite E. cbn [bind].
  destruct r as [i |].
  - left. split. exact P. destruct R as (a & Ai & V). assert (IL : (i < length ys)%nat) by (rewrite LEN; apply nth_error_Some; congruence). destruct (nth_ex ys i IL) as [y Y]. exists i, a, y. repeat (split; [assumption |]). unfold findex. rewrite Y. cbn [unwrap bind].
    case Rcompare_spec; intros; try lra; case Rcompare_spec; intros; try lra; reflexivity.
  - right. split. exact P. destruct (ppoint_spec p xs P INC) as [Sp L]. destruct (ppoint64 p xs) as [| i] eqn:PP.
    { exfalso. pose proof (R lo (nth_error_In _ _ LO)). pose proof (proj2 (Sp 0%nat lo LO)) as K. assert (val lo < val p) by lra. apply K in H0. lia. }
    assert (I1 : (S i < length xs)%nat). { destruct (Nat.eq_dec (S i) (length xs)) as [Q | Q]; [| lia]. exfalso. pose proof (R hi (nth_error_In _ _ HI)). pose proof (proj1 (Sp (length xs - 1)%nat hi HI)) as K. assert (val hi < val p) by (apply K; lia). lra. }
    destruct (nth_ex xs i ltac:(lia)) as [xl XL]. destruct (nth_ex xs (S i) I1) as [xr XR]. destruct (nth_ex ys i ltac:(lia)) as [yl YL]. destruct (nth_ex ys (S i) ltac:(lia)) as [yr YR].
    exists i, xl, xr, yl, yr. repeat (split; [assumption |]). split. { split. apply (Sp i xl XL). lia. destruct (Rlt_or_le (val p) (val xr)) as [Q | Q]; auto. pose proof (R xr (nth_error_In _ _ XR)). assert (val xr < val p) by lra. apply (Sp (S i) xr XR) in H0. lia. }
    unfold findex. rewrite XL, XR, YL, YR. cbn [unwrap bind]. case Rcompare_spec; intros; try lra; case Rcompare_spec; intros; try lra; reflexivity. Qed.

Section Segment.
  Variables xl xr yl yr p : f64.
  Hypothesis P : fin p.
  Hypothesis XP : val xl < val p < val xr.
  Hypothesis DX : fin (fsub xr xl).
  Hypothesis DY : fin (fsub yr yl).
  Let a := fsub p xl. Let b := fsub xr xl. Let w := fdiv a b.
  Lemma weight_facts : fin w /\ 0 <= val w <= 1 /\ 0 < val b /\ val w = rnd (rnd (val p - val xl) / rnd (val xr - val xl)).
  Proof. destruct (fsub_fin _ _ DX) as (XR & XL & VB & BB). destruct (rnd_minus_err (val xr) (val xl) (val_fmt _) (val_fmt _)) as (e & He & R). pose proof u_small as US.
    assert (B0 : 0 < val b). { unfold b. rewrite VB, R. apply Rabs_le_inv in He. pose proof u_pos. apply Rmult_lt_0_compat; lra. }
    assert (AB : 0 <= rnd (val p - val xl) <= rnd (val xr - val xl)). { split. apply rnd_ge. apply generic_format_0. lra. apply rnd_le. lra. }
    destruct (fsub_R p xl P XL) as [FA VA]. { apply (between_lt 0 (rnd (val xr - val xl))); auto. rewrite Rabs_R0. apply bpow_gt_0. }
    fold a in FA, VA. fold b in VB. assert (Q : 0 <= val a / val b <= 1). { rewrite VA, VB in *. split. apply Rmult_le_pos. lra. left. apply Rinv_0_lt_compat. lra. apply Rmult_le_reg_r with (rnd (val xr - val xl)). lra. unfold Rdiv. rewrite Rmult_assoc, Rinv_l by lra. lra. }
    assert (Q' : 0 <= rnd (val a / val b) <= 1). { split. apply rnd_ge. apply generic_format_0. lra. apply rnd_le_fmt. apply (int_fmt 1). cbn. discriminate. lra. }
    destruct (fdiv_R a b FA) as [FW VW]. lra. apply (between_lt 0 1); auto. rewrite Rabs_R0. apply bpow_gt_0. rewrite Rabs_R1. change 1 with (bpow radix2 0). apply bpow_lt. reflexivity.
    split. exact FW. split. unfold w. rewrite VW. exact Q'. split. exact B0. unfold w. rewrite VW, VA, VB. reflexivity. Qed.
  (** The computed ordinate is near the exact one. *)
  Lemma segment_error : let v := segment64 xl xr yl yr p in fin v ->
    Rabs (val v - (val yl + (val yr - val yl) * ((val p - val xl) / (val xr - val xl)))) <= ((1 + u) ^ 5 - 1 + 2 * eta) * Rabs (val yr - val yl) + eta + u * Rabs (val v).
  Proof. intros v Fv. destruct weight_facts as (FW & WB & B0 & VW). unfold v, segment64 in Fv |- *. fold a b in Fv |- *. fold w in Fv |- *. clear v. destruct (fadd_fin _ _ Fv) as (FL & FM & VV & _). destruct (fmul_fin _ _ FM) as (_ & _ & VM & _). destruct (fsub_fin _ _ DY) as (_ & _ & VD & _).
    set (x := val (fadd yl (fmul (fsub yr yl) w))) in *. set (m := val (fmul (fsub yr yl) w)) in *.
    destruct (FLT_plus_error_N_round_ex radix2 (-1074) 53 (fun z => negb (Z.even z)) (val yl) m (val_fmt _) (val_fmt _)) as (e6 & H6 & R6). rewrite u_ro_u in H6. fold (rnd (val yl + m)) in R6. rewrite <- VV in R6.
    destruct (rnd_minus_err (val p) (val xl) (val_fmt _) (val_fmt _)) as (e1 & H1 & R1).
    destruct (FLT_plus_error_N_round_ex radix2 (-1074) 53 (fun z => negb (Z.even z)) (val xr) (- val xl) (val_fmt _) (fmt_opp _ (val_fmt _))) as (e2 & H2 & R2). rewrite u_ro_u in H2. change (val xr + - val xl) with (val xr - val xl) in R2. fold (rnd (val xr - val xl)) in R2.
    destruct (rnd_err (rnd (val p - val xl) / rnd (val xr - val xl))) as (e3 & h3 & H3 & Hh3 & R3). rewrite <- VW in R3.
    destruct (rnd_minus_err (val yr) (val yl) (val_fmt _) (val_fmt _)) as (e4 & H4 & R4). destruct (rnd_err (val (fsub yr yl) * val w)) as (e5 & h5 & H5 & Hh5 & R5). rewrite <- VM in R5. rewrite VD, R4 in R5.
    set (D := val yr - val yl) in *. set (g := (val p - val xl) / (val xr - val xl)). destruct (fsub_fin _ _ DX) as (_ & _ & VB & _). fold b in VB. rewrite <- VB in R3, R2.
    pose proof u_pos as U. pose proof u_small as US. pose proof eta_pos as EP.
    assert (G : 0 <= g <= 1). { unfold g. split. apply Rmult_le_pos. lra. left. apply Rinv_0_lt_compat. lra. apply Rmult_le_reg_r with (val xr - val xl). lra. unfold Rdiv. rewrite Rmult_assoc, Rinv_l by lra. lra. }
    assert (W : val w = g * (1 + e1) * (1 + e2) * (1 + e3) + h3). { rewrite R3, R1. unfold g. apply Rabs_le_inv in H2. rewrite R2. field. split; lra. }
    assert (ONE : forall t, Rabs t <= u -> 0 <= 1 + t <= 1 + u). { intros t T. apply Rabs_le_inv in T. lra. }
    assert (PR : forall n t A, Rabs t <= u -> Rabs (A - 1) <= (1 + u) ^ n - 1 -> Rabs (A * (1 + t) - 1) <= (1 + u) ^ S n - 1).
    { intros n t A T K. replace (A * (1 + t) - 1) with ((A - 1) * (1 + t) + t) by ring. eapply Rle_trans. apply Rabs_triang. rewrite Rabs_mult. destruct (ONE t T). rewrite (Rabs_pos_eq (1 + t)) by lra. pose proof (Rabs_pos (A - 1)). pose proof (pow_ge n).
      assert (Rabs (A - 1) * (1 + t) <= ((1 + u) ^ n - 1) * (1 + u)) by (apply Rmult_le_compat; lra). simpl. lra. }
    set (c := (1 + e1) * (1 + e2) * (1 + e3) * (1 + e4) * (1 + e5)).
    assert (CB : Rabs (c - 1) <= (1 + u) ^ 5 - 1).
    { unfold c. do 4 (apply PR; [assumption |]). replace (1 + e1 - 1) with e1 by ring. simpl. lra. }
    assert (ME : m = D * g + D * g * (c - 1) + (D * ((1 + e4) * (1 + e5) * h3) + h5)). { rewrite R5, W. unfold c. ring. }
    replace (x - (val yl + D * g)) with (D * g * (c - 1) + (D * ((1 + e4) * (1 + e5) * h3) + h5) + - (x * e6)). 2: { replace (x * e6) with (val yl + m - x) by lra. rewrite ME. ring. }
    eapply Rle_trans. apply Rabs_triang. rewrite Rabs_Ropp. apply Rplus_le_compat. 2: { rewrite Rabs_mult, Rmult_comm. apply Rmult_le_compat_r. apply Rabs_pos. exact H6. }
    eapply Rle_trans. apply Rabs_triang. pose proof (Rabs_pos D) as D0.
    assert (T1 : Rabs (D * g * (c - 1)) <= Rabs D * ((1 + u) ^ 5 - 1)). { rewrite !Rabs_mult, (Rabs_pos_eq g) by lra. rewrite Rmult_assoc. apply Rmult_le_compat_l. exact D0. pose proof (Rabs_pos (c - 1)). nra. }
    assert (T2 : Rabs (D * ((1 + e4) * (1 + e5) * h3)) <= Rabs D * (2 * eta)). { rewrite Rabs_mult. apply Rmult_le_compat_l. exact D0. destruct (ONE e4 H4), (ONE e5 H5). rewrite !Rabs_mult, (Rabs_pos_eq (1 + e4)), (Rabs_pos_eq (1 + e5)) by lra. apply Rmult_le_compat. apply Rmult_le_pos; lra. apply Rabs_pos. nra. exact Hh3. }
    pose proof (Rabs_triang (D * ((1 + e4) * (1 + e5) * h3)) h5). lra. Qed.
  (** When the weight stays below one the ordinate lies between the two neighbouring ones. *)
  Lemma rnd_odd z : rnd (- z) = - rnd z. Proof. apply round_NE_opp. Qed.
  Lemma segment_between : val w < 1 -> let v := segment64 xl xr yl yr p in fin v /\ Rmin (val yl) (val yr) <= val v <= Rmax (val yl) (val yr).
  Proof. intros W1 v. destruct weight_facts as (FW & WB & _ & _). assert (W2 : 0 <= val w <= 1 - u) by (split; [lra | apply pred_one; [apply val_fmt | exact W1]]).
    destruct (fsub_fin _ _ DY) as (YR & YL & VD & BD). assert (K : Rmin (val yl) (val yr) <= rnd (val yl + rnd (rnd (val yr - val yl) * val w)) <= Rmax (val yl) (val yr)).
    { destruct (Rle_or_lt (val yl) (val yr)) as [L | L].
      - rewrite Rmin_left, Rmax_right by lra. apply (seg_between (val yl) (val yr) (val w)); auto; apply val_fmt.
      - rewrite Rmin_right, Rmax_left by lra. destruct (seg_between (- val yl) (- val yr) (val w)) as [_ S]; auto; try apply fmt_opp; try apply val_fmt. lra.
        replace (rnd (val yr - val yl)) with (- rnd (- val yr - - val yl)) by (rewrite <- rnd_odd; f_equal; ring).
        replace (- rnd (- val yr - - val yl) * val w) with (- (rnd (- val yr - - val yl) * val w)) by ring. rewrite rnd_odd.
        replace (val yl + - rnd (rnd (- val yr - - val yl) * val w)) with (- (- val yl + rnd (rnd (- val yr - - val yl) * val w))) by ring. rewrite rnd_odd. lra. }
    assert (MB : Rabs (rnd (rnd (val yr - val yl) * val w)) <= Rabs (rnd (val yr - val yl))).
    { apply abs_round_le_generic; try typeclasses eauto. apply generic_format_abs, rnd_fmt. rewrite Rabs_mult, (Rabs_pos_eq (val w)) by lra. pose proof (Rabs_pos (rnd (val yr - val yl))). nra. }
    destruct (fmul_R (fsub yr yl) w DY FW) as [FM VM]. rewrite VD. apply Rle_lt_trans with (1 := MB). exact BD. rewrite VD in VM.
    destruct (fadd_R yl _ YL FM) as [FA VA]. rewrite VM. apply (between_lt _ _ _ (Rle_lt_trans _ _ _ (Req_le _ _ eq_refl) (proj1 (conj (Rmin_case (val yl) (val yr) (fun z => Rabs z < fmaxR) (val_lt yl) (val_lt yr)) I))) (Rmax_case (val yl) (val yr) (fun z => Rabs z < fmaxR) (val_lt yl) (val_lt yr)) K).
    unfold v, segment64. fold a b w. split. exact FA. rewrite VA, VM. exact K. Qed.
End Segment.

(** Interpolated values are within rounding error of the exact interpolation, and between the
    neighbouring ordinates when the weight does not round to one. *)
Theorem interp_accuracy xs ys p v lo hi : increasing xs -> length ys = length xs -> nth_error xs 0 = Some lo -> nth_error xs (length xs - 1) = Some hi ->
  no_overflow xs -> no_overflow ys -> interpolate64 xs ys p = Ret (Some v) ->
  (exists i x, nth_error xs i = Some x /\ nth_error ys i = Some v /\ val x = val p) \/
  (exists i xl xr yl yr, nth_error xs i = Some xl /\ nth_error xs (S i) = Some xr /\ nth_error ys i = Some yl /\ nth_error ys (S i) = Some yr /\ val xl < val p < val xr /\
     (fin v -> Rabs (val v - (val yl + (val yr - val yl) * ((val p - val xl) / (val xr - val xl)))) <= ((1 + u) ^ 5 - 1 + 2 * eta) * Rabs (val yr - val yl) + eta + u * Rabs (val v)) /\
     (val (fdiv (fsub p xl) (fsub xr xl)) < 1 -> fin v /\ Rmin (val yl) (val yr) <= val v <= Rmax (val yl) (val yr))).
Proof. intros INC LEN LO HI NX NY H. destruct (interp64_cases xs ys p lo hi INC LEN LO HI) as [[_ K] | [(_ & _ & K) | [(P & i & x & y & X & Y & V & K) | (P & i & xl & xr & yl & yr & XL & XR & YL & YR & XP & K)]]]; rewrite K in H; try discriminate; injection H as <-.
  - left. eauto.
  - right. exists i, xl, xr, yl, yr. repeat (split; [assumption |]). assert (DX := NX xr xl (nth_error_In _ _ XR) (nth_error_In _ _ XL)). assert (DY := NY yr yl (nth_error_In _ _ YR) (nth_error_In _ _ YL)). split. apply segment_error; assumption. apply segment_between; assumption. Qed.

(** The weight may round to one, and the result exceed both ordinates. *)
Theorem interp_overshoot_refuted : exists xs ys p v, length ys = length xs /\ Forall fin ys /\ interpolate64 xs ys p = Ret (Some v) /\ fin v /\ Forall (fun y => flt y v = true) ys.
Proof. exists [lit (-1) 0; lit 1 (-60)], [lit (-1) 0; lit 3 (-54)], zero, (segment64 (lit (-1) 0) (lit 1 (-60)) (lit (-1) 0) (lit 3 (-54)) zero). split. reflexivity. split. repeat constructor. split. reflexivity. split. vm_compute; reflexivity. repeat constructor; vm_compute; reflexivity. Qed.

Print Assumptions interp64_cases.
Print Assumptions interp_accuracy.
Print Assumptions interp_overshoot_refuted.

(** Non-vacuity *)
Lemma increasing_check (xs : list f64) : forallb is_finite xs = true -> (forall i, (S i < length xs)%nat -> flt (nth i xs nan) (nth (S i) xs nan) = true) -> increasing xs.
Proof. intros F St. assert (FF : Forall fin xs) by (apply Forall_forall; intros x X; rewrite forallb_forall in F; apply F, X). split. exact FF. rewrite Forall_forall in FF.
  intros i j a b L. revert b. induction L as [| j L IH]; intros b A B.
  - assert (I : (S i < length xs)%nat) by (apply nth_error_Some; congruence). specialize (St i I). rewrite (nth_error_nth _ _ nan A), (nth_error_nth _ _ nan B) in St. apply flt_R in St; auto. apply FF, (nth_error_In _ _ A). apply FF, (nth_error_In _ _ B).
  - assert (I : (S j < length xs)%nat) by (apply nth_error_Some; congruence). destruct (nth_ex xs j ltac:(lia)) as [c C]. specialize (St j I). rewrite (nth_error_nth _ _ nan C), (nth_error_nth _ _ nan B) in St. apply flt_R in St. pose proof (IH c A C). lra. apply FF, (nth_error_In _ _ C). apply FF, (nth_error_In _ _ B). Qed.
Example increasing_case : increasing [zero; one; lit 4 0].
Proof. apply increasing_check. reflexivity. intros i L. simpl in L. destruct i as [| [| i]]; try lia; vm_compute; reflexivity. Qed.
Example interp_case : exists v, interpolate64 [zero; one; lit 4 0] [one; two; lit 8 0] two = Ret (Some v) /\ feq v (lit 4 0) = true.
Proof. exists (segment64 one (lit 4 0) two (lit 8 0) two). split. reflexivity. vm_compute. reflexivity. Qed.
Example interp_nan : interpolate64 [zero; one] [one; two] nan = Panic /\ interpolate64 [zero; one] [one; two] two = Ret None.
Proof. split; reflexivity. Qed.
