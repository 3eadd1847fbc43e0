(** C105: year fractions computed with binary64 arithmetic. *)
From Coq Require Import ZArith QArith Reals Qreals Lra Lia List Bool Psatz.
From Flocq Require Import Core.Core IEEE754.BinarySingleNaN Relative.
From Verif Require Import Res DateModel CalModel DayCountModel DayCountProps F64Model F64Base F64Sum F64Order F64Quad F64DayModel.
Import ListNotations.
Open Scope R_scope.

Definition big : Z := 100000000.
Lemma u_9 : u <= / 1000000000. Proof. unfold u. apply Rinv_le_contravar; [lra|]. apply IZR_le. vm_compute. discriminate. Qed.
Lemma eta_u : eta <= u / 1000.
Proof.
  unfold eta, u. replace (IZR (2 ^ 53)) with (bpow radix2 53) by reflexivity. rewrite <- bpow_opp.
  assert (H : bpow radix2 (-1074) <= bpow radix2 (-53 + -10)) by (apply bpow_le; lia). rewrite bpow_plus in H.
  change (bpow radix2 (-10)) with (/ IZR 1024) in H. pose proof (bpow_gt_0 radix2 (-53)). change (- (53))%Z with (-53)%Z. nra.
Qed.
Lemma big_int n : (Z.abs n <= big)%Z -> fin (of_int n) /\ val (of_int n) = IZR n.
Proof. intros H. apply int_lit. unfold big in H. lia. Qed.
Lemma big_R n : (Z.abs n <= big)%Z -> Rabs (IZR n) <= IZR big.
Proof. intros H. rewrite <- abs_IZR. apply IZR_le, H. Qed.
Lemma cap_fin x : Rabs x <= 400000000 -> Rabs (rnd x) < fmaxR.
Proof.
  intros H. apply (rnd_cap 53 x); [lia|]. eapply Rle_trans; [exact H|]. change (bpow radix2 53) with (IZR (2 ^ 53)). apply IZR_le. vm_compute. discriminate.
Qed.
(** an integer divided by one of the literals is correctly rounded *)
Lemma over64_R n den d : (Z.abs n <= big)%Z -> val den = d -> 1 <= d -> fin (over64 n den) /\ val (over64 n den) = rnd (IZR n / d).
Proof.
  intros H <- D. destruct (big_int n H) as [F V]. unfold over64. rewrite <- V. apply fdiv_R; [exact F|lra|]. apply cap_fin. rewrite V.
  unfold Rdiv. rewrite Rabs_mult. pose proof (big_R n H). assert (Rabs (/ val den) <= 1). { rewrite Rabs_pos_eq by (left; apply Rinv_0_lt_compat; lra). rewrite <- Rinv_1. apply Rinv_le_contravar; lra. }
  pose proof (Rabs_pos (IZR n)). pose proof (Rabs_pos (/ val den)). unfold big in *. apply Rle_trans with (IZR 100000000 * 1); [apply Rmult_le_compat; assumption|lra].
Qed.
Lemma d360_R : val d360 = 360. Proof. apply int_lit. cbn. discriminate. Qed.
Lemma d364_R : val d364 = 364. Proof. apply int_lit. cbn. discriminate. Qed.
Lemma d365_R : val d365 = 365. Proof. apply int_lit. cbn. discriminate. Qed.
Lemma d366_R : val d366 = 366. Proof. apply int_lit. cbn. discriminate. Qed.
Lemma d365_25_R : val d365_25 = 1461 / 4.
Proof. destruct (entry_R 1461 (-2) ltac:(lia) ltac:(lia)) as [_ B]. change (val d365_25) with (val (F64QuadModel.entry (1461, -2)%Z)). rewrite B. change (bpow radix2 (-2)) with (/ 4). lra. Qed.
Lemma over_R n q : ~ (q == 0)%Q -> Q2R (over n q) = IZR n / Q2R q.
Proof. intros H. unfold over. rewrite Q2R_div by exact H. unfold Q2R at 1. cbn [inject_Z Qnum Qden]. rewrite Rinv_1, Rmult_1_r. reflexivity. Qed.
Lemma over_den n q r : Q2R q = r -> r <> 0 -> Q2R (over n q) = IZR n / r.
Proof. intros <- H. apply over_R. intros E. apply Qeq_eqR in E. unfold Q2R at 2 in E. cbn in E. lra. Qed.
Lemma q360 : Q2R 360 = 360. Proof. unfold Q2R; cbn; lra. Qed.
Lemma q364 : Q2R 364 = 364. Proof. unfold Q2R; cbn; lra. Qed.
Lemma q365 : Q2R 365 = 365. Proof. unfold Q2R; cbn; lra. Qed.
Lemma q366 : Q2R 366 = 366. Proof. unfold Q2R; cbn; lra. Qed.
Lemma q365_25 : Q2R (1461 # 4) = 1461 / 4. Proof. unfold Q2R; cbn; lra. Qed.

(** ** Sizes *)
Lemma days_size a b : valid a -> valid b -> (Z.abs (whole_days a b) <= 10000000)%Z.
Proof.
  intros A B. unfold whole_days. pose proof (daynum_le_max a A). pose proof (daynum_le_max b B). pose proof (daynum_ge_min a A). pose proof (daynum_ge_min b B).
  assert (M : daynum date_max = 3652059%Z) by (vm_compute; reflexivity). assert (m : (daynum date_min >= -4000000)%Z) by (vm_compute; discriminate). lia.
Qed.
Lemma filter_len {A} (p : A -> bool) l : (length (filter p l) <= length l)%nat.
Proof. induction l as [|x l IH]; cbn; [lia|]. destruct (p x); cbn; lia. Qed.
Lemma leaps_size a b : valid a -> valid b -> (0 <= leap_year_count a b <= 20000)%Z.
Proof.
  intros (A & _) (B & _). unfold leap_year_count. split; [lia|]. pose proof (filter_len is_leap (years_in_range a b)) as L. unfold years_in_range in *. rewrite map_length, seq_length in L. lia.
Qed.
Lemma mlen_31 y m : (month_length y m <= 31)%Z.
Proof. unfold month_length. destruct (m =? 2)%Z; [destruct (is_leap y); lia|]. destruct ((m =? 4) || (m =? 6) || (m =? 9) || (m =? 11))%Z; lia. Qed.
Lemma day_31 d : valid d -> (1 <= day d <= 31)%Z.
Proof. intros (_ & _ & D). pose proof (mlen_31 (year d) (month d)). lia. Qed.
Lemma numerator_size a b d1 d2 : valid a -> valid b -> (0 <= d1 <= 31)%Z -> (0 <= d2 <= 31)%Z -> (Z.abs (numerator (year a) (year b) (month a) (month b) d1 d2) <= 10000000)%Z.
Proof. intros (A & A' & _) (B & B' & _) D1 D2. unfold numerator. lia. Qed.
Lemma ten n : (Z.abs n <= 10000000)%Z -> (Z.abs n <= big)%Z. Proof. unfold big. lia. Qed.

(** ** One rounding *)
Ltac single N :=
  let go D Q := (destruct (over64_R _ _ _ N D ltac:(lra)) as [FX VX]; split; [exact FX|]; rewrite VX; f_equal; symmetry; apply over_den; [exact Q|lra]) in
  match goal with
  | |- fin (over64 _ d360) /\ _ => go d360_R q360
  | |- fin (over64 _ d364) /\ _ => go d364_R q364
  | |- fin (over64 _ d365) /\ _ => go d365_R q365
  | |- fin (over64 _ d366) /\ _ => go d366_R q366
  | |- fin (over64 _ d365_25) /\ _ => go d365_25_R q365_25
  end.
Ltac clamp := repeat match goal with |- context [if ?b then _ else _] => destruct b end; lia.
(** Every convention but Actual/Actual returns the double nearest to the exact year fraction; it
    panics exactly when the exact one does. *)
Theorem day_count64_rounded : forall c a b, valid a -> valid b -> c <> Actual_Actual_AFB -> c <> Actual_Actual_ISDA ->
  match day_count64 c a b, day_count_factor c a b with
  | Ret x, Ret q => fin x /\ val x = rnd (Q2R q)
  | Panic, Panic => True
  | _, _ => False
  end.
Proof.
  intros c a b A B N1 N2. pose proof (ten _ (days_size a b A B)) as D. pose proof (day_31 a A) as DA. pose proof (day_31 b B) as DB.
  destruct c; try congruence; cbn [day_count64 day_count_factor].
  - split; [reflexivity|]. unfold Q2R; cbn. rewrite Rinv_1, Rmult_1_r. rewrite (proj2 one_R). symmetry. apply rnd_id. apply (int_fmt 1). lia.
  - single D.
  - single D.
  - single D.
  - single D.
  - unfold leap64, dcf_365_leap. destruct (contains_leap_year a b); single D.
  - single D.
  - unfold leap64, dcf_365_leap. destruct (contains_leap_year a b); single D.
  - exact I.
  - assert (S1 : (Z.abs (whole_days a b - leap_year_count a b) <= big)%Z) by (pose proof (days_size a b A B); pose proof (leaps_size a b A B); unfold big; lia).
    assert (E : fin (nl64 d360 a b) /\ val (nl64 d360 a b) = rnd (IZR (whole_days a b - leap_year_count a b) / 360)).
    { destruct (big_int _ D) as [F1 V1]. assert (L : (Z.abs (leap_year_count a b) <= big)%Z) by (pose proof (leaps_size a b A B); unfold big; lia). destruct (big_int _ L) as [F2 V2].
      assert (FM : fmt (IZR (whole_days a b - leap_year_count a b))) by (apply int_fmt; unfold big in S1; lia).
      destruct (fsub_R _ _ F1 F2) as [F3 V3]. { rewrite V1, V2, <- minus_IZR. apply cap_fin. eapply Rle_trans; [apply big_R, S1|]. unfold big; lra. }
      rewrite V1, V2, <- minus_IZR, (rnd_id _ FM) in V3. unfold nl64. rewrite <- V3, <- d360_R. apply fdiv_R; [exact F3|rewrite d360_R; lra|]. rewrite V3, d360_R. apply cap_fin.
      unfold Rdiv. rewrite Rabs_mult, (Rabs_pos_eq (/ 360)) by lra. pose proof (big_R _ S1). pose proof (Rabs_pos (IZR (whole_days a b - leap_year_count a b))). unfold big in *. lra. }
    destruct E as [FX VX]. split; [exact FX|]. rewrite VX. f_equal. symmetry. apply over_den; [exact q360|lra].
  - assert (S1 : (Z.abs (whole_days a b - leap_year_count a b) <= big)%Z) by (pose proof (days_size a b A B); pose proof (leaps_size a b A B); unfold big; lia).
    assert (E : fin (nl64 d365 a b) /\ val (nl64 d365 a b) = rnd (IZR (whole_days a b - leap_year_count a b) / 365)).
    { destruct (big_int _ D) as [F1 V1]. assert (L : (Z.abs (leap_year_count a b) <= big)%Z) by (pose proof (leaps_size a b A B); unfold big; lia). destruct (big_int _ L) as [F2 V2].
      assert (FM : fmt (IZR (whole_days a b - leap_year_count a b))) by (apply int_fmt; unfold big in S1; lia).
      destruct (fsub_R _ _ F1 F2) as [F3 V3]. { rewrite V1, V2, <- minus_IZR. apply cap_fin. eapply Rle_trans; [apply big_R, S1|]. unfold big; lra. }
      rewrite V1, V2, <- minus_IZR, (rnd_id _ FM) in V3. unfold nl64. rewrite <- V3, <- d365_R. apply fdiv_R; [exact F3|rewrite d365_R; lra|]. rewrite V3, d365_R. apply cap_fin.
      unfold Rdiv. rewrite Rabs_mult, (Rabs_pos_eq (/ 365)) by lra. pose proof (big_R _ S1). pose proof (Rabs_pos (IZR (whole_days a b - leap_year_count a b))). unfold big in *. lra. }
    destruct E as [FX VX]. split; [exact FX|]. rewrite VX. f_equal. symmetry. apply over_den; [exact q365|lra].
  - unfold isda30_64, dcf_30_isda. cbv zeta. set (d1 := if (day a =? 31)%Z then 30%Z else day a). assert (H1 : (0 <= d1 <= 31)%Z) by (unfold d1; clamp).
    set (d2 := if ((d1 =? 30) && (day b =? 31))%Z%bool then 30%Z else day b). assert (H2 : (0 <= d2 <= 31)%Z) by (unfold d2; clamp). pose proof (ten _ (numerator_size a b d1 d2 A B H1 H2)) as N. single N.
  - unfold e30_64, dcf_30e. cbv zeta. set (d1 := if (day a =? 31)%Z then 30%Z else day a). assert (H1 : (0 <= d1 <= 31)%Z) by (unfold d1; clamp).
    set (d2 := if (day b =? 31)%Z then 30%Z else day b). assert (H2 : (0 <= d2 <= 31)%Z) by (unfold d2; clamp). pose proof (ten _ (numerator_size a b d1 d2 A B H1 H2)) as N. single N.
  - unfold e30_isda64, dcf_30e_isda. cbv zeta. set (d1 := if ((day a =? 31)%Z || is_last_day_of_february a)%bool then 30%Z else day a). assert (H1 : (0 <= d1 <= 31)%Z) by (unfold d1; clamp).
    set (d2 := if ((day b =? 31)%Z || is_last_day_of_february b)%bool then 30%Z else day b). assert (H2 : (0 <= d2 <= 31)%Z) by (unfold d2; clamp). pose proof (ten _ (numerator_size a b d1 d2 A B H1 H2)) as N. single N.
  - unfold e30_isda64, dcf_30e_isda. cbv zeta. set (d1 := if ((day a =? 31)%Z || is_last_day_of_february a)%bool then 30%Z else day a). assert (H1 : (0 <= d1 <= 31)%Z) by (unfold d1; clamp).
    set (d2 := if ((day b =? 31)%Z || is_last_day_of_february b)%bool then 30%Z else day b). assert (H2 : (0 <= d2 <= 31)%Z) by (unfold d2; clamp). pose proof (ten _ (numerator_size a b d1 d2 A B H1 H2)) as N. single N.
  - unfold e30_plus64, dcf_30e_plus. cbv zeta. set (d1 := if (day a =? 31)%Z then 30%Z else day a). assert (H1 : (0 <= d1 <= 31)%Z) by (unfold d1; clamp).
    assert (K : forall e, valid e -> fin (over64 (numerator (year a) (year e) (month a) (month e) d1 (day e)) d360) /\ val (over64 (numerator (year a) (year e) (month a) (month e) d1 (day e)) d360) = rnd (Q2R (over (numerator (year a) (year e) (month a) (month e) d1 (day e)) 360))).
    { intros e V. pose proof (day_31 e V). pose proof (ten _ (numerator_size a e d1 (day e) A V H1 ltac:(lia))) as N. single N. }
    destruct (day b =? 31)%Z; [|exact (K b B)]. destruct (next_day b) as [e|] eqn:E; [|exact I]. cbn. apply K. apply (next_day_spec b e B E).
  - unfold u30_64, dcf_30u. cbv zeta. set (d1 := if ((day a =? 31)%Z || is_last_day_of_february a)%bool then 30%Z else day a). assert (H1 : (0 <= d1 <= 31)%Z) by (unfold d1; clamp).
    set (d2 := if ((day b =? 31)%Z && (d1 =? 30)%Z || is_last_day_of_february b)%bool then 30%Z else day b). assert (H2 : (0 <= d2 <= 31)%Z) by (unfold d2; clamp). pose proof (ten _ (numerator_size a b d1 d2 A B H1 H2)) as N. single N.
Qed.
Print Assumptions day_count64_rounded.
Example day_count64_rounded_meets : valid (Date 2024 1 31) /\ valid (Date 2025 3 31) /\
  match day_count64 Thirty_U_360 (Date 2024 1 31) (Date 2025 3 31) with Ret x => flt one x && flt x two | _ => false end = true.
Proof. split; [repeat split; cbn; lia|]. split; [repeat split; cbn; lia|]. vm_compute. reflexivity. Qed.

(** ** Consequences of the single rounding *)
Lemma rounded_val c a b x q : valid a -> valid b -> c <> Actual_Actual_AFB -> c <> Actual_Actual_ISDA ->
  day_count64 c a b = Ret x -> day_count_factor c a b = Ret q -> fin x /\ val x = rnd (Q2R q).
Proof. intros A B N1 N2 X Q. pose proof (day_count64_rounded c a b A B N1 N2) as H. rewrite X, Q in H. exact H. Qed.
Lemma rounded_ret c a b x : valid a -> valid b -> c <> Actual_Actual_AFB -> c <> Actual_Actual_ISDA ->
  day_count64 c a b = Ret x -> exists q, day_count_factor c a b = Ret q.
Proof. intros A B N1 N2 X. pose proof (day_count64_rounded c a b A B N1 N2) as H. rewrite X in H. destruct (day_count_factor c a b) as [q| |]; try contradiction. exists q. reflexivity. Qed.
Lemma quarter_fmt k : (Z.abs k <= 2 ^ 53)%Z -> fmt (IZR k / 4).
Proof.
  intros H. replace (IZR k / 4) with (val (F64QuadModel.entry (k, -2)%Z)); [apply val_fmt|]. rewrite (proj2 (entry_R k (-2) ltac:(lia) H)). change (bpow radix2 (-2)) with (/ 4). lra.
Qed.
(** A year fraction which is exactly a number of quarters is computed exactly. *)
Theorem day_count64_quarters : forall c a b x q k, valid a -> valid b -> c <> Actual_Actual_AFB -> c <> Actual_Actual_ISDA ->
  day_count64 c a b = Ret x -> day_count_factor c a b = Ret q -> (q == k # 4)%Q -> (Z.abs k <= 2 ^ 53)%Z -> val x = IZR k / 4.
Proof.
  intros c a b x q k A B N1 N2 X Q E K. destruct (rounded_val c a b x q A B N1 N2 X Q) as [_ V]. rewrite V, (Qeq_eqR _ _ E).
  unfold Q2R; cbn [Qnum Qden]. apply rnd_id. apply quarter_fmt, K.
Qed.
Print Assumptions day_count64_quarters.
Example day_count64_quarters_meets : day_count64 Thirty_E_360 (Date 2024 1 31) (Date 2025 4 30) <> Panic /\
  match day_count_factor Thirty_E_360 (Date 2024 1 31) (Date 2025 4 30) with Ret q => (q == 5 # 4)%Q | _ => False end.
Proof. split; [discriminate|]. vm_compute. reflexivity. Qed.

Lemma fixed_not c q : fixed_den c = Some q -> c <> Actual_Actual_AFB /\ c <> Actual_Actual_ISDA /\ 1 <= Q2R q <= 400.
Proof. intros H. destruct c; try discriminate; injection H as <-; (split; [discriminate|]); (split; [discriminate|]); unfold Q2R; cbn; lra. Qed.
Lemma fixed_val c q a b x : fixed_den c = Some q -> valid a -> valid b -> day_count64 c a b = Ret x -> fin x /\ val x = rnd (IZR (daynum b - daynum a) / Q2R q).
Proof.
  intros H A B X. destruct (fixed_not c q H) as (N1 & N2 & R). destruct (dc_actual_constant c q a b H) as (f & F & E). destruct (rounded_val c a b x f A B N1 N2 X F) as [FX V]. split; [exact FX|].
  rewrite V. f_equal. apply Qeq_eqR in E. rewrite Q2R_mult in E. apply Rmult_eq_reg_r with (Q2R q); [|lra]. rewrite E. unfold Q2R at 1. cbn [inject_Z Qnum Qden]. field. lra.
Qed.
Lemma rnd_opp x : rnd (- x) = - rnd x.
Proof. apply round_NE_opp. Qed.
Lemma strict_rnd n m d : (Z.abs n <= 10000000)%Z -> (Z.abs m <= 10000000)%Z -> 1 <= d <= 400 -> (n < m)%Z -> rnd (IZR n / d) < rnd (IZR m / d).
Proof.
  intros N M D L. pose proof (rnd_abs_err (IZR n / d)) as E1. pose proof (rnd_abs_err (IZR m / d)) as E2. apply Rabs_le_inv in E1. apply Rabs_le_inv in E2.
  assert (I : / 400 <= / d <= 1). { split; [apply Rinv_le_contravar; lra|]. rewrite <- Rinv_1. apply Rinv_le_contravar; lra. }
  unfold Rdiv in *. rewrite Rabs_mult in E1, E2. rewrite (Rabs_pos_eq (/ d)) in E1, E2 by lra.
  assert (N' : Rabs (IZR n) <= 10000000) by (rewrite <- abs_IZR; apply IZR_le; exact N). assert (M' : Rabs (IZR m) <= 10000000) by (rewrite <- abs_IZR; apply IZR_le; exact M).
  assert (L' : IZR n + 1 <= IZR m) by (rewrite <- plus_IZR; apply IZR_le; lia). pose proof u_9. pose proof u_pos. pose proof eta_u. pose proof eta_pos.
  assert (B1 : u * (Rabs (IZR n) * / d) <= / 100 * / d). { rewrite <- Rmult_assoc. apply Rmult_le_compat_r; [lra|]. apply Rle_trans with (/ 1000000000 * 10000000); [apply Rmult_le_compat; try lra; apply Rabs_pos|lra]. }
  assert (B2 : u * (Rabs (IZR m) * / d) <= / 100 * / d). { rewrite <- Rmult_assoc. apply Rmult_le_compat_r; [lra|]. apply Rle_trans with (/ 1000000000 * 10000000); [apply Rmult_le_compat; try lra; apply Rabs_pos|lra]. }
  assert (B3 : IZR n * / d + / d <= IZR m * / d) by nra. lra.
Qed.
(** With a constant divisor: finite, zero exactly for equal dates, antisymmetric, strictly
    increasing in the end date, and additive up to the rounding of the parts. *)
Theorem day_count64_fixed : forall c q a b x, fixed_den c = Some q -> valid a -> valid b -> day_count64 c a b = Ret x ->
  fin x /\ (val x = 0 <-> a = b) /\ (0 < val x <-> date_ltb a b = true) /\
  (forall y, day_count64 c b a = Ret y -> val y = - val x) /\
  (forall b' y, valid b' -> day_count64 c a b' = Ret y -> (flt x y = true <-> date_ltb b b' = true)) /\
  (forall m y z, valid m -> day_count64 c a m = Ret y -> day_count64 c m b = Ret z ->
     Rabs (val x - (val y + val z)) <= u * (Rabs (IZR (daynum b - daynum a)) + Rabs (IZR (daynum m - daynum a)) + Rabs (IZR (daynum b - daynum m))) / Q2R q + 3 * eta).
Proof.
  intros c q a b x H A B X. destruct (fixed_val c q a b x H A B X) as [FX V]. destruct (fixed_not c q H) as (_ & _ & R).
  assert (MONO : forall a' b' c' d' x' y', valid a' -> valid b' -> valid c' -> valid d' -> day_count64 c a' b' = Ret x' -> day_count64 c c' d' = Ret y' -> (daynum b' - daynum a' < daynum d' - daynum c')%Z -> val x' < val y').
  { intros a' b' c' d' x' y' VA VB VC VD X' Y' L. rewrite (proj2 (fixed_val c q a' b' x' H VA VB X')), (proj2 (fixed_val c q c' d' y' H VC VD Y')). apply strict_rnd; [exact (days_size a' b' VA VB)|exact (days_size c' d' VC VD)|exact R|exact L]. }
  assert (Z0 : forall y, day_count64 c a a = Ret y -> val y = 0). { intros y Y. rewrite (proj2 (fixed_val c q a a y H A A Y)), Z.sub_diag. unfold Rdiv. rewrite Rmult_0_l. apply rnd_0. }
  assert (TOT : forall a' b', exists y, day_count64 c a' b' = Ret y) by (intros a' b'; destruct c; try discriminate; eexists; reflexivity).
  destruct (TOT a a) as (o & O). pose proof (Z0 o O) as O0.
  split; [exact FX|]. split; [|split; [|split; [|split]]].
  - split; [|intros <-; exact (Z0 x X)]. intros E. apply daynum_inj; try assumption. destruct (Z.lt_trichotomy (daynum b) (daynum a)) as [L | [L | L]]; [|lia|].
    + pose proof (MONO a b a a x o A B A A X O ltac:(lia)). lra.
    + pose proof (MONO a a a b o x A A A B O X ltac:(lia)). lra.
  - rewrite daynum_lt by assumption. split.
    + intros P. destruct (Z.lt_trichotomy (daynum b) (daynum a)) as [L | [L | L]]; [|exfalso|lia].
      * pose proof (MONO a b a a x o A B A A X O ltac:(lia)). lra.
      * apply daynum_inj in L; try assumption. subst b. pose proof (Z0 x X). lra.
    + intros L. pose proof (MONO a a a b o x A A A B O X ltac:(lia)). lra.
  - intros y Y. rewrite (proj2 (fixed_val c q b a y H B A Y)), V, <- rnd_opp. f_equal. replace (daynum a - daynum b)%Z with (- (daynum b - daynum a))%Z by lia. rewrite opp_IZR. unfold Rdiv. ring.
  - intros b' y B' Y. destruct (fixed_val c q a b' y H A B' Y) as [FY VY]. rewrite (flt_R _ _ FX FY), daynum_lt by assumption. split.
    + intros L. destruct (Z.lt_trichotomy (daynum b) (daynum b')) as [K | [K | K]]; [exact K|exfalso|exfalso].
      * apply daynum_inj in K; try assumption. subst b'. rewrite X in Y. injection Y as <-. lra.
      * pose proof (MONO a b' a b y x A B' A B Y X ltac:(lia)). lra.
    + intros L. apply (MONO a b a b' x y A B A B' X Y). lia.
  - intros m y z M Y Z. rewrite V, (proj2 (fixed_val c q a m y H A M Y)), (proj2 (fixed_val c q m b z H M B Z)).
    set (n1 := IZR (daynum b - daynum a)). set (n2 := IZR (daynum m - daynum a)). set (n3 := IZR (daynum b - daynum m)).
    assert (S : n1 = n2 + n3) by (unfold n1, n2, n3; rewrite <- plus_IZR; f_equal; lia).
    pose proof (rnd_abs_err (n1 / Q2R q)) as E1. pose proof (rnd_abs_err (n2 / Q2R q)) as E2. pose proof (rnd_abs_err (n3 / Q2R q)) as E3.
    assert (AB : forall n, Rabs (n / Q2R q) = Rabs n / Q2R q). { intros n. unfold Rdiv. rewrite Rabs_mult. f_equal. apply Rabs_pos_eq. left. apply Rinv_0_lt_compat. lra. }
    rewrite AB in E1, E2, E3.
    replace (rnd (n1 / Q2R q) - (rnd (n2 / Q2R q) + rnd (n3 / Q2R q))) with ((rnd (n1 / Q2R q) - n1 / Q2R q) - (rnd (n2 / Q2R q) - n2 / Q2R q) - (rnd (n3 / Q2R q) - n3 / Q2R q)) by (rewrite S; field; lra).
    eapply Rle_trans; [apply Rabs_triang|]. eapply Rle_trans; [apply Rplus_le_compat_r, Rabs_triang|]. rewrite !Rabs_Ropp.
    replace (u * (Rabs n1 + Rabs n2 + Rabs n3) / Q2R q) with (u * (Rabs n1 / Q2R q) + u * (Rabs n2 / Q2R q) + u * (Rabs n3 / Q2R q)) by (field; lra). lra.
Qed.
Print Assumptions day_count64_fixed.
Example day_count64_fixed_meets : exists q, fixed_den Actual_365_25 = Some q /\ valid (Date 2024 2 28) /\ valid (Date 2024 3 1) /\
  match day_count64 Actual_365_25 (Date 2024 2 28) (Date 2024 3 1) with Ret x => flt zero x | _ => false end = true.
Proof. eexists. split; [reflexivity|]. split; [repeat split; cbn; lia|]. split; [repeat split; cbn; lia|]. vm_compute. reflexivity. Qed.

(** ** Actual/Actual: several roundings *)
Lemma int_div_err n den d M : (Z.abs n <= M <= 800)%Z -> val den = d -> 365 <= d <= 366 -> fin (over64 n den) /\ Rabs (val (over64 n den)) <= IZR M / 365 + / 1000 /\ Rabs (val (over64 n den) - IZR n / d) <= u * Rabs (IZR n / d) + eta /\ Rabs (IZR n / d) <= IZR M / 365.
Proof.
  intros N D L. destruct (over64_R n den d ltac:(unfold big; lia) D ltac:(lra)) as [F V]. split; [exact F|]. rewrite V. pose proof (rnd_abs_err (IZR n / d)) as E.
  assert (M8 : IZR M <= 800) by (apply IZR_le; lia).
  assert (B : Rabs (IZR n / d) <= IZR M / 365). { unfold Rdiv. rewrite Rabs_mult, (Rabs_pos_eq (/ d)) by (left; apply Rinv_0_lt_compat; lra). assert (Rabs (IZR n) <= IZR M) by (rewrite <- abs_IZR; apply IZR_le; lia). assert (/ d <= / 365) by (apply Rinv_le_contravar; lra). assert (0 < / d) by (apply Rinv_0_lt_compat; lra). pose proof (Rabs_pos (IZR n)). apply Rmult_le_compat; lra. }
  pose proof u_pos. pose proof u_9. pose proof eta_u. pose proof (Rabs_pos (IZR n / d)). split; [|split; [exact E|exact B]].
  assert (u * Rabs (IZR n / d) <= / 10000) by nra. pose proof (near_abs _ _ _ E). lra.
Qed.
Lemma add_err x y : fin x -> fin y -> Rabs (val x) <= 100000 -> Rabs (val y) <= 100000 -> fin (fadd x y) /\ Rabs (val (fadd x y) - (val x + val y)) <= u * Rabs (val x + val y).
Proof.
  intros X Y BX BY. destruct (fadd_R x y X Y) as [F V]. { apply cap_fin. eapply Rle_trans; [apply Rabs_triang|]. lra. }
  split; [exact F|]. rewrite V. apply rnd_sum_err; apply val_fmt.
Qed.
Lemma year_days a : valid a -> (1 <= ordinal a <= 366)%Z.
Proof. intros V. pose proof (ordinal_range a V) as H. unfold days_in_year in H. destruct (is_leap (year a)); lia. Qed.
Lemma q_int n : Q2R (inject_Z n) = IZR n. Proof. unfold Q2R, inject_Z. cbn [Qnum Qden]. rewrite Rinv_1. ring. Qed.
Theorem day_count64_isda : forall a b, valid a -> valid b ->
  match day_count64 Actual_Actual_ISDA a b, day_count_factor Actual_Actual_ISDA a b with
  | Ret x, Ret q => fin x /\ Rabs (val x - Q2R q) <= 4 * u * (Rabs (IZR (year b - year a)) + 2)
  | Panic, Panic => True
  | _, _ => False
  end.
Proof.
  intros a b A B. cbn [day_count64 day_count_factor]. unfold isda64, dcf_isda. pose proof u_pos as U. pose proof u_9 as U9. pose proof eta_u as EU. pose proof eta_pos as E0.
  destruct (date_eqb a b).
  { split; [reflexivity|]. change (val zero) with 0. unfold Q2R; cbn. rewrite Rmult_0_l, Rminus_0_r, Rabs_R0. pose proof (Rabs_pos (IZR (year b - year a))). nra. }
  destruct (from_ymd (year a + 1) 1 1) as [j1|] eqn:J1; [|exact I]. cbn [unwrap bind]. destruct (from_ymd (year b) 1 1) as [j2|] eqn:J2; [|exact I]. cbn [unwrap bind].
  destruct (from_ymd_Some _ _ _ _ J1) as [E1 V1]. destruct (from_ymd_Some _ _ _ _ J2) as [E2 V2]. subst j1 j2.
  assert (D1 : (Z.abs (days_between a (Date (year a + 1) 1 1)) <= 366 <= 800)%Z).
  { unfold days_between. rewrite first_of_month_num, before_month_first. unfold daynum. pose proof (before_year_step (year a)) as ST. pose proof (year_days a A). unfold days_in_year in ST. destruct (is_leap (year a)); lia. }
  assert (D2 : (Z.abs (days_between (Date (year b) 1 1) b) <= 366 <= 800)%Z).
  { unfold days_between. rewrite first_of_month_num, before_month_first. unfold daynum. pose proof (year_days b B). lia. }
  set (n1 := days_between a (Date (year a + 1) 1 1)) in *. set (n2 := days_between (Date (year b) 1 1) b) in *.
  assert (DEN : forall y, exists d, val (if is_leap y then d366 else d365) = d /\ 365 <= d <= 366 /\ Q2R (inject_Z (if is_leap y then 366 else 365)) = d).
  { intros y. destruct (is_leap y); [exists 366 | exists 365]; (split; [first [exact d366_R|exact d365_R]|]); (split; [lra|]); apply q_int. }
  destruct (DEN (year a)) as (da & DA & RA & QA). destruct (DEN (year b)) as (db & DB & RB & QB).
  destruct (int_div_err n1 _ da 366 D1 DA RA) as (F1 & B1 & X1 & Y1). destruct (int_div_err n2 _ db 366 D2 DB RB) as (F2 & B2 & X2 & Y2).
  assert (YR : (Z.abs (year b - year a - 1) <= 20000)%Z) by (destruct A as (A & _), B as (B & _); lia).
  destruct (big_int (year b - year a - 1) ltac:(unfold big; lia)) as [F0 V0].
  assert (K : Rabs (IZR (year b - year a - 1)) <= 20000) by (rewrite <- abs_IZR; apply IZR_le; exact YR).
  assert (KA : Rabs (IZR (year b - year a - 1)) <= Rabs (IZR (year b - year a)) + 1). { rewrite minus_IZR. eapply Rle_trans; [apply Rabs_triang|]. rewrite Rabs_Ropp, Rabs_R1. lra. }
  set (r1 := over64 n1 (if is_leap (year a) then d366 else d365)) in *. set (r2 := over64 n2 (if is_leap (year b) then d366 else d365)) in *.
  destruct (add_err (of_int (year b - year a - 1)) r1 F0 F1 ltac:(rewrite V0; lra) ltac:(lra)) as [F3 E3]. rewrite V0 in E3.
  set (s1 := fadd (of_int (year b - year a - 1)) r1) in *. set (k := IZR (year b - year a - 1)) in *.
  assert (S1 : Rabs (val s1) <= Rabs k + 102 / 100). { apply Rle_trans with (Rabs (k + val r1) + u * Rabs (k + val r1)); [apply near_abs; exact E3|]. assert (Rabs (k + val r1) <= Rabs k + 101 / 100) by (eapply Rle_trans; [apply Rabs_triang|lra]). pose proof (Rabs_pos (k + val r1)). nra. }
  destruct (add_err s1 r2 F3 F2 ltac:(lra) ltac:(lra)) as [F4 E4]. split; [exact F4|].
  rewrite !Q2R_plus, q_int. fold k. rewrite (over_den n1 _ da QA ltac:(lra)), (over_den n2 _ db QB ltac:(lra)).
  set (t1 := IZR n1 / da) in *. set (t2 := IZR n2 / db) in *. set (s2 := fadd s1 r2) in *.
  replace (val s2 - (k + t1 + t2)) with ((val s2 - (val s1 + val r2)) + (val s1 - (k + val r1)) + (val r1 - t1) + (val r2 - t2)) by ring.
  eapply Rle_trans; [apply Rabs_triang|]. eapply Rle_trans; [apply Rplus_le_compat_r, Rabs_triang|]. eapply Rle_trans; [apply Rplus_le_compat_r, Rplus_le_compat_r, Rabs_triang|].
  assert (G1 : Rabs (val s1 + val r2) <= Rabs k + 203 / 100) by (eapply Rle_trans; [apply Rabs_triang|lra]). assert (G2 : Rabs (k + val r1) <= Rabs k + 101 / 100) by (eapply Rle_trans; [apply Rabs_triang|lra]).
  pose proof (Rabs_pos (IZR (year b - year a))). nra.
Qed.
Print Assumptions day_count64_isda.
Example day_count64_isda_meets : valid (Date 2023 11 15) /\ valid (Date 2025 2 3) /\
  match day_count64 Actual_Actual_ISDA (Date 2023 11 15) (Date 2025 2 3) with Ret x => flt one x && flt x two | _ => false end = true.
Proof. split; [repeat split; cbn; lia|]. split; [repeat split; cbn; lia|]. vm_compute. reflexivity. Qed.

Theorem day_count64_afb : forall a b, valid a -> valid b ->
  match day_count64 Actual_Actual_AFB a b, day_count_factor Actual_Actual_AFB a b with
  | Ret x, Ret q => fin x /\ Rabs (val x - Q2R q) <= 2 * u * (Rabs (IZR (year b - year a)) + 3)
  | Panic, Panic => True
  | _, _ => False
  end.
Proof.
  intros a b A B. cbn [day_count64 day_count_factor]. unfold afb64, dcf_afb. pose proof u_pos as U. pose proof u_9 as U9. pose proof eta_u as EU. pose proof eta_pos as E0.
  destruct (from_ymd (year a) (month b) (day b)) as [s0|] eqn:S0; [|exact I]. cbn [unwrap bind]. destruct (from_ymd_Some _ _ _ _ S0) as [ES0 VS0].
  assert (K : forall stub, valid stub -> (year a <= year stub <= year a + 1)%Z ->
    match (if contains_leap_year a stub then Ret (fadd (of_int (year b - year stub)) (over64 (whole_days a stub) d366)) else Ret (over64 (whole_days a b) d365)),
          (if contains_leap_year a stub then Ret (inject_Z (year b - year stub) + over (whole_days a stub) 366)%Q else Ret (over (whole_days a b) 365)) with
    | Ret x, Ret q => fin x /\ Rabs (val x - Q2R q) <= 2 * u * (Rabs (IZR (year b - year a)) + 3) | Panic, Panic => True | _, _ => False end).
  { intros stub VS YS. assert (YB : (Z.abs (year b - year a) <= 20000)%Z) by (destruct A as (A & _), B as (B & _); lia). destruct (contains_leap_year a stub).
    - assert (D : (Z.abs (whole_days a stub) <= 732 <= 800)%Z).
      { unfold whole_days, daynum. pose proof (year_days a A). pose proof (year_days stub VS). assert (C : (year stub = year a \/ year stub = year a + 1)%Z) by lia. destruct C as [-> | ->]; [lia|]. pose proof (before_year_step (year a)) as ST. unfold days_in_year in ST. destruct (is_leap (year a)); lia. }
      destruct (int_div_err _ _ _ 732 D d366_R ltac:(lra)) as (F1 & B1 & X1 & Y1). destruct (big_int (year b - year stub) ltac:(unfold big; lia)) as [F0 V0].
      assert (KB : Rabs (IZR (year b - year stub)) <= Rabs (IZR (year b - year a)) + 1).
      { replace (IZR (year b - year stub)) with (IZR (year b - year a) + IZR (year a - year stub)) by (rewrite <- plus_IZR; f_equal; lia). eapply Rle_trans; [apply Rabs_triang|]. apply Rplus_le_compat_l. rewrite <- abs_IZR. apply IZR_le. lia. }
      assert (KK : Rabs (IZR (year b - year a)) <= 20000) by (rewrite <- abs_IZR; apply IZR_le; exact YB).
      destruct (add_err (of_int (year b - year stub)) _ F0 F1 ltac:(rewrite V0; lra) ltac:(lra)) as [F3 E3]. rewrite V0 in E3. split; [exact F3|].
      rewrite Q2R_plus, q_int, (over_den _ _ _ q366 ltac:(lra)). set (r := over64 (whole_days a stub) d366) in *. set (k := IZR (year b - year stub)) in *. set (t := IZR (whole_days a stub) / 366) in *.
      replace (val (fadd (of_int (year b - year stub)) r) - (k + t)) with ((val (fadd (of_int (year b - year stub)) r) - (k + val r)) + (val r - t)) by ring.
      eapply Rle_trans; [apply Rabs_triang|]. assert (G : Rabs (k + val r) <= Rabs k + 202 / 100) by (eapply Rle_trans; [apply Rabs_triang|lra]). pose proof (Rabs_pos (IZR (year b - year a))). nra.
    - destruct (over64_R _ _ _ (ten _ (days_size a b A B)) d365_R ltac:(lra)) as [FX VX]. split; [exact FX|]. rewrite VX, (over_den _ _ _ q365 ltac:(lra)).
      eapply Rle_trans; [apply rnd_abs_err|]. assert (G : Rabs (IZR (whole_days a b)) <= 366 * (Rabs (IZR (year b - year a)) + 3)).
      { rewrite <- !abs_IZR, <- plus_IZR, <- mult_IZR. apply IZR_le. unfold whole_days, daynum, before_year. pose proof (year_days a A). pose proof (year_days b B). Z.to_euclidean_division_equations; lia. }
      unfold Rdiv. rewrite Rabs_mult, (Rabs_pos_eq (/ 365)) by lra. pose proof (Rabs_pos (IZR (year b - year a))). nra. }
  destruct (date_ltb s0 a).
  - destruct (from_ymd (year a + 1) (month b) (day b)) as [s1|] eqn:S1; [|exact I]. cbn [unwrap bind]. destruct (from_ymd_Some _ _ _ _ S1) as [ES1 VS1]. apply K; [exact VS1|subst s1; cbn; lia].
  - cbn [bind]. apply K; [exact VS0|subst s0; cbn; lia].
Qed.
Print Assumptions day_count64_afb.
Example day_count64_afb_meets : valid (Date 2023 11 15) /\ valid (Date 2027 2 3) /\
  match day_count64 Actual_Actual_AFB (Date 2023 11 15) (Date 2027 2 3) with Ret x => flt (lit 3 0) x && flt x (lit 4 0) | _ => false end = true.
Proof. split; [repeat split; cbn; lia|]. split; [repeat split; cbn; lia|]. vm_compute. reflexivity. Qed.

(** The year fractions of adjacent periods need not add up to that of the whole, even when the
    final sum is rounded; an Actual/Actual ISDA fraction inside one year is not the nearest double
    to days over days in the year, and depends on where in the year the period lies. *)
Theorem day_count64_additive_refuted : exists a m b x y z, valid a /\ valid m /\ valid b /\
  day_count64 Actual_365_Fixed a b = Ret x /\ day_count64 Actual_365_Fixed a m = Ret y /\ day_count64 Actual_365_Fixed m b = Ret z /\ feq (fadd y z) x = false.
Proof.
  exists (Date 2023 1 1), (Date 2023 1 4), (Date 2023 1 8). do 3 eexists. do 3 (split; [repeat split; cbn; lia|]). do 3 (split; [reflexivity|]). vm_compute. reflexivity.
Qed.
Print Assumptions day_count64_additive_refuted.
Theorem isda64_nearest_refuted : exists a b a' b' x y, valid a /\ valid b /\ valid a' /\ valid b' /\ year a = year b /\ year a' = year a /\ year b' = year a /\
  daynum b = (daynum a + 1)%Z /\ daynum b' = (daynum a' + 1)%Z /\ day_count64 Actual_Actual_ISDA a b = Ret x /\ day_count64 Actual_Actual_ISDA a' b' = Ret y /\
  day_count64 Actual_365_Fixed a b = Ret y /\ flt y x = true.
Proof.
  exists (Date 2023 1 2), (Date 2023 1 3), (Date 2023 1 1), (Date 2023 1 2). do 2 eexists. do 4 (split; [repeat split; cbn; lia|]). do 5 (split; [reflexivity|]). split; [reflexivity|]. split; [reflexivity|]. split; [|vm_compute; reflexivity].
  cbn [day_count64]. f_equal.
Qed.
Print Assumptions isda64_nearest_refuted.

(** The factors of a list of dates: one per pair of consecutive dates, in order. *)
Theorem factors64_spec : forall c ds l, day_count_factors64 c ds = Ret l ->
  length l = Nat.pred (length ds) /\
  forall i a b, nth_error ds i = Some a -> nth_error ds (S i) = Some b -> exists x, nth_error l i = Some x /\ day_count64 c a b = Ret x.
Proof.
  intros c ds. induction ds as [|d ds IH]; intros l H.
  - injection H as <-. split; [reflexivity|]. intros [|i] a b A; discriminate.
  - destruct ds as [|e ds].
    + injection H as <-. split; [reflexivity|]. intros [|[|i]] a b A B; discriminate.
    + unfold day_count_factors64 in H. cbn [windows sequence] in H. destruct (day_count64 c d e) as [x| |] eqn:E; try discriminate. cbn [bind] in H.
      change (match ds with [] => [] | b :: _ => day_count64 c e b :: windows (day_count64 c) ds end) with (windows (day_count64 c) (e :: ds)) in H. fold (day_count_factors64 c (e :: ds)) in H.
      destruct (day_count_factors64 c (e :: ds)) as [r| |]; try discriminate. cbn [bind] in H. injection H as <-. destruct (IH r eq_refl) as [L N]. split; [cbn [length Nat.pred] in *; lia|].
      intros [|i] a b A B.
      * cbn in A, B. injection A as <-. injection B as <-. exists x. split; [reflexivity|exact E].
      * cbn [nth_error]. exact (N i a b A B).
Qed.
Print Assumptions factors64_spec.
Example factors64_meets : match day_count_factors64 Actual_360 [Date 2024 1 1; Date 2024 4 1; Date 2025 1 1] with Ret [x; y] => flt x y | _ => false end = true.
Proof. vm_compute. reflexivity. Qed.
