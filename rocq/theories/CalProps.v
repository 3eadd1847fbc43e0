(** Calendars: the theorems (C11-C14, C17). *)
From Coq Require Import ZArith List Bool Lia Sorted Permutation.
From Verif Require Import Res DateModel CalModel CalProofs.
Import ListNotations.
Open Scope Z_scope.

(** A calendar for the examples: Saturday/Sunday weekends and New Year's day
    as the only market holiday. *)
Definition new_year_calendar : calendar :=
  calendar_new false (fun d => Some ((month d =? 1) && (day d =? 1))).
(** one whose only business days are the two listed *)
Definition only_two (a b : date) : calendar :=
  calendar_new false (fun d => Some (negb (date_eqb d a || date_eqb d b))).

(** ** C11 rolling *)

(** Following: the result is the earliest business day on or after the date,
    and whenever there is such a day (with no panic of the market rule before
    it) it is returned. *)
Theorem cal_following_nearest : forall c d r, valid d ->
  (roll_date c d Following = Ret r <->
   valid r /\ daynum d <= daynum r /\ is_business_day c r = Ret true /\
   forall e, valid e -> daynum d <= daynum e < daynum r -> is_business_day c e = Ret false).
Proof.
  intros c d r V. split.
  - intros H. destruct (next_business_day_Ret c d r V H) as (A & B & C & D). auto.
  - intros (A & B & C & D). apply next_business_day_found; assumption.
Qed.
Print Assumptions cal_following_nearest.
Example cal_following_nearest_case :
  roll_date new_year_calendar (Date 2022 12 31) Following = Ret (Date 2023 1 2).
Proof. reflexivity. Qed.

Theorem cal_preceding_nearest : forall c d r, valid d ->
  (roll_date c d Preceding = Ret r <->
   valid r /\ daynum r <= daynum d /\ is_business_day c r = Ret true /\
   forall e, valid e -> daynum r < daynum e <= daynum d -> is_business_day c e = Ret false).
Proof.
  intros c d r V. split.
  - intros H. destruct (previous_business_day_Ret c d r V H) as (A & B & C & D). auto.
  - intros (A & B & C & D). apply previous_business_day_found; assumption.
Qed.
Print Assumptions cal_preceding_nearest.
Example cal_preceding_nearest_case :
  roll_date new_year_calendar (Date 2023 1 1) Preceding = Ret (Date 2022 12 30).
Proof. reflexivity. Qed.

(** Rolling always terminates: the loops never exceed the date range. *)
Theorem cal_roll_terminates : forall c d r, valid d -> roll_date c d r <> NoFuel.
Proof.
  intros c d r V.
  assert (N : next_business_day c d <> NoFuel) by (apply next_bd_loop_fuel; [assumption|lia]).
  assert (P : previous_business_day c d <> NoFuel) by (apply prev_bd_loop_fuel; [assumption|lia]).
  destruct r; simpl; try assumption; try discriminate.
  - unfold roll_modified_following. destruct (next_business_day c d) as [x| |]; simpl; try discriminate; [|congruence].
    destruct (month x =? month d); [discriminate|assumption].
  - unfold roll_modified_preceding. destruct (previous_business_day c d) as [x| |]; simpl; try discriminate; [|congruence].
    destruct (month x =? month d); [discriminate|assumption].
Qed.
Print Assumptions cal_roll_terminates.

(** With no business day left in the direction of travel rolling panics (it
    steps off the end of the supported dates). *)
Theorem cal_roll_exhausted_panics : forall c d, valid d ->
  ((forall e, valid e -> daynum d <= daynum e -> is_business_day c e = Ret false) ->
   roll_date c d Following = Panic) /\
  ((forall e, valid e -> daynum e <= daynum d -> is_business_day c e = Ret false) ->
   roll_date c d Preceding = Panic).
Proof.
  intros c d V. split; intros H; [apply next_bd_loop_none|apply prev_bd_loop_none]; try assumption; lia.
Qed.
Print Assumptions cal_roll_exhausted_panics.
Example cal_roll_exhausted_case :
  roll_date (add_holiday new_year_calendar (Date 9999 12 31)) (Date 9999 12 31) Following = Panic.
Proof. reflexivity. Qed.

(** A business day is left alone by every convention. *)
Theorem cal_roll_keeps_business_days : forall c d r, valid d ->
  is_business_day c d = Ret true -> roll_date c d r = Ret d.
Proof.
  intros c d r V B.
  assert (N : next_business_day c d = Ret d)
    by (apply next_business_day_found; try assumption; try lia; intros; lia).
  assert (P : previous_business_day c d = Ret d)
    by (apply previous_business_day_found; try assumption; try lia; intros; lia).
  destruct r; simpl; try assumption; try reflexivity.
  - unfold roll_modified_following. rewrite N. simpl. rewrite Z.eqb_refl. reflexivity.
  - unfold roll_modified_preceding. rewrite P. simpl. rewrite Z.eqb_refl. reflexivity.
Qed.
Print Assumptions cal_roll_keeps_business_days.

(** Except under Actual, which is the identity, the result is a business day;
    so rolling twice is rolling once. *)
Theorem cal_roll_business : forall c d r e, valid d ->
  roll_date c d r = Ret e ->
  valid e /\ (r = Actual /\ e = d \/ r <> Actual /\ is_business_day c e = Ret true).
Proof.
  intros c d r e V H.
  assert (N : forall x, next_business_day c d = Ret x -> valid x /\ business c x).
  { intros x Hx. destruct (next_business_day_Ret c d x V Hx) as (A & B & _). split; assumption. }
  assert (P : forall x, previous_business_day c d = Ret x -> valid x /\ business c x).
  { intros x Hx. destruct (previous_business_day_Ret c d x V Hx) as (A & B & _). split; assumption. }
  destruct r; simpl in H.
  - injection H as <-. split; [assumption|]. left. split; reflexivity.
  - apply N in H as [A B]. split; [assumption|]. right. split; [discriminate|assumption].
  - unfold roll_modified_following in H. apply bind_Ret_inv in H as (x & Hx & H).
    destruct (month x =? month d).
    + injection H as <-. apply N in Hx as [A B]. split; [assumption|]. right. split; [discriminate|assumption].
    + apply P in H as [A B]. split; [assumption|]. right. split; [discriminate|assumption].
  - apply P in H as [A B]. split; [assumption|]. right. split; [discriminate|assumption].
  - unfold roll_modified_preceding in H. apply bind_Ret_inv in H as (x & Hx & H).
    destruct (month x =? month d).
    + injection H as <-. apply P in Hx as [A B]. split; [assumption|]. right. split; [discriminate|assumption].
    + apply N in H as [A B]. split; [assumption|]. right. split; [discriminate|assumption].
  - apply N in H as [A B]. split; [assumption|]. right. split; [discriminate|assumption].
Qed.
Print Assumptions cal_roll_business.

Theorem cal_roll_idempotent : forall c d r e, valid d ->
  roll_date c d r = Ret e -> roll_date c e r = Ret e.
Proof.
  intros c d r e V H. destruct (cal_roll_business c d r e V H) as (Ve & [[-> ->]|[N B]]).
  - reflexivity.
  - apply cal_roll_keeps_business_days; assumption.
Qed.
Print Assumptions cal_roll_idempotent.
Example cal_roll_idempotent_case :
  roll_date new_year_calendar (Date 2023 4 30) ModifiedFollowing = Ret (Date 2023 4 28) /\
  roll_date new_year_calendar (Date 2023 4 28) ModifiedFollowing = Ret (Date 2023 4 28).
Proof. split; reflexivity. Qed.

(** Rolling is monotone: it never reorders dates. *)
Theorem cal_following_monotone : forall c d1 d2 r1 r2, valid d1 -> valid d2 ->
  daynum d1 <= daynum d2 ->
  roll_date c d1 Following = Ret r1 -> roll_date c d2 Following = Ret r2 -> daynum r1 <= daynum r2.
Proof.
  intros c d1 d2 r1 r2 V1 V2 L H1 H2.
  apply cal_following_nearest in H1 as (A1 & B1 & C1 & D1); [|assumption].
  apply cal_following_nearest in H2 as (A2 & B2 & C2 & D2); [|assumption].
  destruct (Z_lt_le_dec (daynum r2) (daynum r1)) as [Q|Q]; [|assumption].
  specialize (D1 r2 A2 ltac:(lia)). congruence.
Qed.
Print Assumptions cal_following_monotone.
Theorem cal_preceding_monotone : forall c d1 d2 r1 r2, valid d1 -> valid d2 ->
  daynum d1 <= daynum d2 ->
  roll_date c d1 Preceding = Ret r1 -> roll_date c d2 Preceding = Ret r2 -> daynum r1 <= daynum r2.
Proof.
  intros c d1 d2 r1 r2 V1 V2 L H1 H2.
  apply cal_preceding_nearest in H1 as (A1 & B1 & C1 & D1); [|assumption].
  apply cal_preceding_nearest in H2 as (A2 & B2 & C2 & D2); [|assumption].
  destruct (Z_lt_le_dec (daynum r2) (daynum r1)) as [Q|Q]; [|assumption].
  specialize (D2 r1 A1 ltac:(lia)). congruence.
Qed.
Print Assumptions cal_preceding_monotone.

(** A list of dates is rolled date by date, in order. *)
Theorem cal_roll_dates_pointwise : forall c r ds rs,
  roll_dates c ds r = Ret rs <-> Forall2 (fun d x => roll_date c d r = Ret x) ds rs.
Proof.
  intros c r. induction ds as [|d ds IH]; intros rs; simpl.
  - split; intros H; [injection H as <-; constructor|inversion H; reflexivity].
  - split.
    + intros H. apply bind_Ret_inv in H as (x & Hx & H). apply bind_Ret_inv in H as (xs & Hxs & H).
      injection H as <-. constructor; [assumption|]. apply IH; assumption.
    + intros H. inversion H as [|? x ? xs Hx Hxs]; subst. rewrite Hx. simpl.
      apply IH in Hxs. rewrite Hxs. reflexivity.
Qed.
Print Assumptions cal_roll_dates_pointwise.
Example cal_roll_dates_case :
  roll_dates new_year_calendar [Date 2023 4 30; Date 2023 1 1; Date 2023 1 3] Following
  = Ret [Date 2023 5 1; Date 2023 1 2; Date 2023 1 3].
Proof. reflexivity. Qed.

(** ** C12 modified conventions *)

Theorem cal_modified_following : forall c d n, valid d ->
  roll_date c d Following = Ret n ->
  (month n = month d -> roll_date c d ModifiedFollowing = Ret n) /\
  (month n <> month d -> roll_date c d ModifiedFollowing = roll_date c d Preceding).
Proof.
  intros c d n V H. simpl in *. unfold roll_modified_following. rewrite H. simpl.
  destruct (Z.eqb_spec (month n) (month d)); split; intros; congruence.
Qed.
Print Assumptions cal_modified_following.
Theorem cal_modified_preceding : forall c d n, valid d ->
  roll_date c d Preceding = Ret n ->
  (month n = month d -> roll_date c d ModifiedPreceding = Ret n) /\
  (month n <> month d -> roll_date c d ModifiedPreceding = roll_date c d Following).
Proof.
  intros c d n V H. simpl in *. unfold roll_modified_preceding. rewrite H. simpl.
  destruct (Z.eqb_spec (month n) (month d)); split; intros; congruence.
Qed.
Print Assumptions cal_modified_preceding.

(** If the month holds a business day the result has that month ... *)
Theorem cal_modified_same_month : forall c d r e, valid d -> valid e ->
  is_business_day c e = Ret true -> year e = year d -> month e = month d ->
  roll_date c d ModifiedFollowing = Ret r \/ roll_date c d ModifiedPreceding = Ret r ->
  month r = month d.
Proof.
  intros c d r e Vd Ve B Y M [H|H];
    [eapply modified_following_month|eapply modified_preceding_month]; eassumption.
Qed.
Print Assumptions cal_modified_same_month.
Example cal_modified_same_month_case :
  roll_date new_year_calendar (Date 2023 4 30) ModifiedFollowing = Ret (Date 2023 4 28) /\
  roll_date new_year_calendar (Date 2023 1 1) ModifiedPreceding = Ret (Date 2023 1 2).
Proof. split; reflexivity. Qed.

Lemma same_month_number_far : forall a b, valid a -> valid b -> month a = month b ->
  year a < year b -> 335 <= daynum b - daynum a.
Proof.
  intros [ya ma da] [yb mb db] Va Vb M Y. simpl in M, Y. subst mb.
  destruct Va as (A1 & A2 & A3), Vb as (B1 & B2 & B3). cbn [year month day] in *.
  pose proof (before_year_le (ya + 1) yb ltac:(lia)) as L. rewrite before_year_step in L.
  unfold daynum, ordinal. cbn [year month day].
  assert (before_month ya ma - before_month yb ma + da <= 31 + (days_in_year ya - 365)
          /\ before_month ya ma - before_month yb ma <= days_in_year ya - 365) as [K1 K2].
  { pose proof (month_length_range ya ma).
    assert (before_month ya ma - before_month yb ma <= days_in_year ya - 365); [|lia].
    unfold before_month, days_in_year. destruct (is_leap ya), (is_leap yb);
      destruct (2 <? ma); cbn [andb]; lia. }
  lia.
Qed.

(** ... and the same year, as long as the two candidates are less than 335 days
    away. *)
Theorem cal_modified_same_year_month : forall c d r e, valid d -> valid e ->
  is_business_day c e = Ret true -> year e = year d -> month e = month d ->
  roll_date c d ModifiedFollowing = Ret r \/ roll_date c d ModifiedPreceding = Ret r ->
  Z.abs (daynum r - daynum d) < 335 ->
  year r = year d /\ month r = month d.
Proof.
  intros c d r e Vd Ve B Y M H L.
  assert (Mr : month r = month d) by (eapply cal_modified_same_month; eassumption).
  assert (Vr : valid r) by (destruct H as [H|H]; apply cal_roll_business in H as [H _]; assumption).
  split; [|assumption].
  destruct (Z.lt_trichotomy (year r) (year d)) as [Q|[Q|Q]]; [|assumption|].
  - pose proof (same_month_number_far r d Vr Vd Mr Q). lia.
  - pose proof (same_month_number_far d r Vd Vr (eq_sym Mr) Q). lia.
Qed.
Print Assumptions cal_modified_same_year_month.

(** Only the month number is compared, not the year: with business days a year
    apart ModifiedFollowing leaves the month although it holds a business day. *)
Theorem cal_modified_year_refuted : exists c d r e,
  valid d /\ valid e /\ is_business_day c e = Ret true /\ year e = year d /\ month e = month d /\
  roll_date c d ModifiedFollowing = Ret r /\ year r <> year d.
Proof.
  exists (only_two (Date 2023 1 2) (Date 2024 1 2)), (Date 2023 1 10), (Date 2024 1 2), (Date 2023 1 2).
  split; [vm_compute; intuition discriminate|]. split; [vm_compute; intuition discriminate|].
  split; [reflexivity|]. split; [reflexivity|]. split; [reflexivity|].
  split; [vm_compute; reflexivity|]. discriminate.
Qed.
Print Assumptions cal_modified_year_refuted.

(** ** C13 counting *)

(** The count is the number of business days of the closed interval: the
    length of a duplicate-free list of exactly those dates. *)
Theorem cal_business_day_count : forall c d1 d2, valid d1 -> valid d2 ->
  daynum d2 < daynum date_max ->
  (forall e, valid e -> daynum d1 <= daynum e <= daynum d2 -> is_business_day c e <> Panic) ->
  exists l, business_day_count c d1 d2 = Ret (Z.of_nat (length l)) /\ NoDup l /\
    forall e, In e l <->
      valid e /\ daynum d1 <= daynum e <= daynum d2 /\ is_business_day c e = Ret true.
Proof.
  intros c d1 d2 V1 V2 M D. apply business_day_count_spec; try assumption.
  intros e Ve He. specialize (D e Ve He). pose proof (is_business_day_fuel c e).
  unfold business, closed. destruct (is_business_day c e) as [[]| |]; auto; congruence.
Qed.
Print Assumptions cal_business_day_count.
Example cal_business_day_count_case :
  business_day_count new_year_calendar (Date 2022 12 30) (Date 2023 1 3) = Ret 3.
Proof. reflexivity. Qed.

(** The loop cannot count up to the last supported date: it panics. *)
Theorem cal_business_day_count_max_panics : forall c d1, valid d1 ->
  (forall e, valid e -> daynum d1 <= daynum e -> is_business_day c e <> Panic) ->
  business_day_count c d1 date_max = Panic.
Proof.
  intros c d1 V D. unfold business_day_count.
  assert (K : forall fuel t n, valid t -> daynum d1 <= daynum t ->
    (Z.to_nat (daynum date_max - daynum t) < fuel)%nat -> bd_count_loop fuel c t date_max n = Panic).
  { induction fuel as [|f IH]; intros t n Vt Lt F; [lia|]. cbn [bd_count_loop].
    replace (date_leb t date_max) with true
      by (symmetry; apply daynum_le; [assumption|apply valid_max|apply daynum_le_max; assumption]).
    specialize (D t Vt Lt). pose proof (is_business_day_fuel c t).
    destruct (is_business_day c t) as [b| |]; cbn [bind]; try congruence.
    destruct (next_day t) as [t'|] eqn:N; [|reflexivity]. cbn [unwrap bind].
    destruct (next_day_spec t t' Vt N) as [V' N']. pose proof (daynum_le_max t' V').
    apply IH; [assumption|lia|lia]. }
  apply K; [assumption|lia|lia].
Qed.
Print Assumptions cal_business_day_count_max_panics.
Example cal_business_day_count_max_case :
  business_day_count new_year_calendar (Date 9999 12 30) (Date 9999 12 31) = Panic.
Proof. reflexivity. Qed.

(** An empty interval has no business day, and adjacent intervals add up. *)
Theorem cal_business_day_count_additive : forall c d1 d2 d2' d3 n m,
  valid d1 -> valid d2 -> valid d2' -> valid d3 ->
  daynum d2' = daynum d2 + 1 -> daynum d1 <= daynum d2' -> daynum d2 <= daynum d3 ->
  daynum d3 < daynum date_max ->
  (forall e, valid e -> daynum d1 <= daynum e <= daynum d3 -> is_business_day c e <> Panic) ->
  business_day_count c d1 d2 = Ret n -> business_day_count c d2' d3 = Ret m ->
  business_day_count c d1 d3 = Ret (n + m).
Proof.
  intros c d1 d2 d2' d3 n m V1 V2 V2' V3 E L1 L3 M D H1 H2.
  destruct (cal_business_day_count c d1 d2) as (l1 & E1 & N1 & I1); try assumption; try lia.
  { intros e Ve He. apply D; [assumption|lia]. }
  destruct (cal_business_day_count c d2' d3) as (l2 & E2 & N2 & I2); try assumption.
  { intros e Ve He. apply D; [assumption|lia]. }
  destruct (cal_business_day_count c d1 d3) as (l & El & N & I); try assumption.
  rewrite El. f_equal. rewrite E1 in H1. rewrite E2 in H2. injection H1 as <-. injection H2 as <-.
  rewrite <- Nat2Z.inj_add, <- app_length. f_equal. apply Permutation_length.
  apply NoDup_Permutation; [assumption| |].
  -
    clear - N1 N2 I1 I2 E.
    assert (Dj : forall x, In x l1 -> ~ In x l2).
    { intros x H1 H2. apply I1 in H1. apply I2 in H2. lia. }
    clear I1 I2. induction l1 as [|a l1 IH]; [assumption|]. simpl. inversion N1; subst. constructor.
    + rewrite in_app_iff. intros [H|H]; [contradiction|]. apply (Dj a); [left; reflexivity|assumption].
    + apply IH; [assumption|]. intros x Hx. apply Dj. right. assumption.
  - intros x. rewrite in_app_iff, I, I1, I2. split.
    + intros (Vx & R & B). destruct (Z_le_gt_dec (daynum x) (daynum d2)).
      * left. split; [assumption|]. split; [lia|assumption].
      * right. split; [assumption|]. split; [lia|assumption].
    + intros [(Vx & R & B)|(Vx & R & B)]; (split; [assumption|]; split; [lia|assumption]).
Qed.
Print Assumptions cal_business_day_count_additive.
Example cal_business_day_count_additive_case :
  business_day_count new_year_calendar (Date 2022 12 30) (Date 2023 1 2) = Ret 2 /\
  business_day_count new_year_calendar (Date 2023 1 3) (Date 2023 1 9) = Ret 5 /\
  business_day_count new_year_calendar (Date 2022 12 30) (Date 2023 1 9) = Ret 7.
Proof. repeat split; reflexivity. Qed.

(** it is between zero and the number of calendar days plus one *)
Theorem cal_business_day_count_bound : forall c d1 d2 n, valid d1 -> valid d2 ->
  business_day_count c d1 d2 = Ret n ->
  0 <= n /\ (daynum d1 <= daynum d2 -> n <= calendar_day_count d1 d2 + 1) /\
  (daynum d2 < daynum d1 -> n = 0).
Proof.
  intros c d1 d2 n V1 V2 H.
  assert (K : forall fuel t k r, valid t -> bd_count_loop fuel c t d2 k = Ret r ->
            k <= r /\ (daynum t <= daynum d2 + 1 -> r <= k + (daynum d2 + 1 - daynum t)) /\
            (daynum d2 < daynum t -> r = k)).
  { induction fuel as [|f IH]; intros t k r Vt E; [discriminate|]. cbn [bd_count_loop] in E.
    destruct (date_leb t d2) eqn:L.
    - apply daynum_le in L; try assumption.
      apply bind_Ret_inv in E as (b & Eb & E). apply bind_Ret_inv in E as (t' & Et & E).
      destruct (next_day t) as [t2|] eqn:N; simpl in Et; [|discriminate]. injection Et as <-.
      destruct (next_day_spec t t2 Vt N) as [V' N']. apply IH in E; [|assumption].
      destruct E as (A & B & C). specialize (B ltac:(lia)). destruct b; lia.
    - injection E as <-.
      assert (~ daynum t <= daynum d2) by (intros Q; apply daynum_le in Q; try assumption; congruence). lia. }
  apply K in H; [|assumption]. unfold calendar_day_count. lia.
Qed.
Print Assumptions cal_business_day_count_bound.

(** the vector versions are the pairwise counts of adjacent dates *)
Theorem cal_day_counts_windows : forall c ds,
  calendar_day_counts ds = map (fun p => daynum (snd p) - daynum (fst p)) (combine ds (tl ds)) /\
  forall ns, business_day_counts c ds = Ret ns <->
    Forall2 (fun p n => business_day_count c (fst p) (snd p) = Ret n) (combine ds (tl ds)) ns.
Proof.
  intros c ds. split.
  - unfold calendar_day_counts. induction ds as [|a ds IH]; [reflexivity|].
    destruct ds as [|b ds]; [reflexivity|].
    change (windows calendar_day_count (a :: b :: ds))
      with (calendar_day_count a b :: windows calendar_day_count (b :: ds)).
    rewrite IH. reflexivity.
  - unfold business_day_counts. induction ds as [|a ds IH]; intros ns.
    + simpl. split; intros H; [injection H as <-; constructor|inversion H; reflexivity].
    + destruct ds as [|b ds].
      * simpl. split; intros H; [injection H as <-; constructor|inversion H; reflexivity].
      * change (windows (business_day_count c) (a :: b :: ds))
          with (business_day_count c a b :: windows (business_day_count c) (b :: ds)).
        change (combine (a :: b :: ds) (tl (a :: b :: ds))) with ((a, b) :: combine (b :: ds) (tl (b :: ds))).
        cbn [sequence]. split.
        -- intros H. apply bind_Ret_inv in H as (x & Hx & H). apply bind_Ret_inv in H as (xs & Hxs & H).
           injection H as <-. constructor; [assumption|]. apply IH; assumption.
        -- intros H. inversion H as [|? x ? xs Hx Hxs]; subst. cbn [fst snd] in Hx. rewrite Hx. cbn [bind].
           apply IH in Hxs. rewrite Hxs. reflexivity.
Qed.
Print Assumptions cal_day_counts_windows.
Example cal_day_counts_case :
  calendar_day_counts [Date 2023 1 1; Date 2024 1 1; Date 2025 1 1] = [365; 366] /\
  business_day_counts new_year_calendar [Date 2023 1 1; Date 2023 1 8; Date 2023 1 15] = Ret [5; 5].
Proof. split; reflexivity. Qed.

(** [date_sequence]: every date from start to end, once, in order; an end
    before the start panics, and so does the last supported date. *)
Theorem cal_date_sequence : forall a b, valid a -> valid b ->
  daynum a <= daynum b -> daynum b < daynum date_max ->
  exists l, date_sequence a b = Ret l /\ StronglySorted (fun x y => daynum x < daynum y) l /\
    forall x, In x l <-> valid x /\ daynum a <= daynum x <= daynum b.
Proof.
  intros a b Va Vb L M. unfold date_sequence.
  destruct (Z.ltb_spec (daynum b - daynum a) 0); [lia|].
  apply date_seq_loop_spec; try assumption. lia.
Qed.
Print Assumptions cal_date_sequence.
Example cal_date_sequence_case :
  date_sequence (Date 2024 2 28) (Date 2024 3 1) = Ret [Date 2024 2 28; Date 2024 2 29; Date 2024 3 1].
Proof. reflexivity. Qed.
Theorem cal_date_sequence_reversed_panics : forall a b,
  daynum b < daynum a -> date_sequence a b = Panic.
Proof. intros a b L. unfold date_sequence. destruct (Z.ltb_spec (daynum b - daynum a) 0); [reflexivity|lia]. Qed.
Print Assumptions cal_date_sequence_reversed_panics.
Example cal_date_sequence_reversed_case : daynum (Date 2024 2 28) < daynum (Date 2024 2 29).
Proof. reflexivity. Qed.

(** ** C14 extra holidays *)

Theorem cal_extra_holidays_exact : forall c ds d,
  (In d ds -> is_business_day (add_holidays c ds) d = Ret false) /\
  (~ In d ds -> is_business_day (add_holidays c ds) d = is_business_day c d).
Proof. intros c ds d. destruct (add_holidays_business c ds d) as (_ & A & B). split; assumption. Qed.
Print Assumptions cal_extra_holidays_exact.
Example cal_extra_holidays_case :
  is_business_day new_year_calendar (Date 2023 1 3) = Ret true /\
  is_business_day (add_holidays new_year_calendar [Date 2023 1 4; Date 2023 1 3]) (Date 2023 1 3) = Ret false /\
  is_business_day (add_holidays new_year_calendar [Date 2023 1 4; Date 2023 1 3]) (Date 2023 1 5) = Ret true.
Proof. repeat split; reflexivity. Qed.

(** order and repetition are irrelevant *)
Theorem cal_extra_holidays_set : forall c ds es d,
  (forall x, In x ds <-> In x es) ->
  is_business_day (add_holidays c ds) d = is_business_day (add_holidays c es) d.
Proof.
  intros c ds es d H. destruct (cal_extra_holidays_exact c ds d) as [A B].
  destruct (cal_extra_holidays_exact c es d) as [A' B'].
  destruct (existsb (date_eqb d) ds) eqn:E.
  - apply existsb_exists in E as (x & Hx & E). apply date_eqb_eq in E. subst x.
    rewrite A by assumption. rewrite A' by (apply H; assumption). reflexivity.
  - assert (N : ~ In d ds).
    { intros Hin. assert (existsb (date_eqb d) ds = true); [|congruence].
      apply existsb_exists. exists d. split; [assumption|]. apply date_eqb_eq. reflexivity. }
    rewrite B by assumption. rewrite B' by (rewrite <- H; assumption). reflexivity.
Qed.
Print Assumptions cal_extra_holidays_set.

(** more holidays roll dates further and never increase a count *)
Theorem cal_extra_holidays_roll_further : forall c ds d r r', valid d ->
  (roll_date c d Following = Ret r -> roll_date (add_holidays c ds) d Following = Ret r' ->
   daynum r <= daynum r') /\
  (roll_date c d Preceding = Ret r -> roll_date (add_holidays c ds) d Preceding = Ret r' ->
   daynum r' <= daynum r).
Proof.
  intros c ds d r r' V. split; intros H H'.
  - apply cal_following_nearest in H as (A & B & C & D); [|assumption].
    apply cal_following_nearest in H' as (A' & B' & C' & D'); [|assumption].
    destruct (Z_lt_le_dec (daynum r') (daynum r)) as [Q|Q]; [|assumption].
    apply add_holidays_business in C' as [C' _]. specialize (D r' A' ltac:(lia)).
    unfold business in C'. congruence.
  - apply cal_preceding_nearest in H as (A & B & C & D); [|assumption].
    apply cal_preceding_nearest in H' as (A' & B' & C' & D'); [|assumption].
    destruct (Z_lt_le_dec (daynum r) (daynum r')) as [Q|Q]; [|assumption].
    apply add_holidays_business in C' as [C' _]. specialize (D r' A' ltac:(lia)).
    unfold business in C'. congruence.
Qed.
Print Assumptions cal_extra_holidays_roll_further.

Theorem cal_extra_holidays_count : forall c ds d1 d2 n m, valid d1 -> valid d2 ->
  daynum d2 < daynum date_max ->
  (forall e, valid e -> daynum d1 <= daynum e <= daynum d2 -> is_business_day c e <> Panic) ->
  business_day_count c d1 d2 = Ret n -> business_day_count (add_holidays c ds) d1 d2 = Ret m ->
  m <= n.
Proof.
  intros c ds d1 d2 n m V1 V2 M D H1 H2.
  destruct (cal_business_day_count c d1 d2) as (l & E & N & I); try assumption.
  destruct (cal_business_day_count (add_holidays c ds) d1 d2) as (l' & E' & N' & I'); try assumption.
  { intros e Ve He. destruct (cal_extra_holidays_exact c ds e) as [A B].
    destruct (is_business_day (add_holidays c ds) e) as [b| |] eqn:Q; try discriminate. 
    destruct (existsb (date_eqb e) ds) eqn:X.
    - apply existsb_exists in X as (x & Hx & X). apply date_eqb_eq in X. subst x.
      specialize (A Hx). congruence.
    - exfalso. apply (D e Ve He). symmetry. apply B.
      intros Hin. assert (existsb (date_eqb e) ds = true); [|congruence].
      apply existsb_exists. exists e. split; [assumption|]. apply date_eqb_eq. reflexivity. }
  rewrite E in H1. rewrite E' in H2. injection H1 as <-. injection H2 as <-.
  apply inj_le. apply NoDup_incl_length; [assumption|]. intros x Hx. apply I' in Hx as (Vx & R & B).
  apply I. split; [assumption|]. split; [assumption|]. apply add_holidays_business in B as [B _]. exact B.
Qed.
Print Assumptions cal_extra_holidays_count.
Example cal_extra_holidays_count_case :
  business_day_count new_year_calendar (Date 2022 12 30) (Date 2023 1 3) = Ret 3 /\
  business_day_count (add_holidays new_year_calendar [Date 2023 1 2]) (Date 2022 12 30) (Date 2023 1 3) = Ret 2.
Proof. split; reflexivity. Qed.

(** ** C17 month helpers *)

Theorem cal_first_weekday_of_month : forall wd y m,
  0 <= wd <= 6 -> -9999 <= y <= 9999 -> 1 <= m <= 12 ->
  exists d, first_weekday_of_month wd y m = Ret (Some d) /\ valid d /\
    year d = y /\ month d = m /\ weekday d = wd /\
    forall e, valid e -> year e = y -> month e = m -> weekday e = wd -> daynum d <= daynum e.
Proof. exact first_weekday_spec. Qed.
Print Assumptions cal_first_weekday_of_month.
Example cal_first_weekday_case : first_weekday_of_month 4 2023 9 = Ret (Some (Date 2023 9 1))
  /\ first_weekday_of_month 0 2023 9 = Ret (Some (Date 2023 9 4)).
Proof. split; reflexivity. Qed.

Theorem cal_last_weekday_of_month : forall wd y m,
  0 <= wd <= 6 -> -9999 <= y <= 9999 -> 1 <= m <= 12 ->
  exists d, last_weekday_of_month wd y m = Ret (Some d) /\ valid d /\
    year d = y /\ month d = m /\ weekday d = wd /\
    forall e, valid e -> year e = y -> month e = m -> weekday e = wd -> daynum e <= daynum d.
Proof. exact last_weekday_spec. Qed.
Print Assumptions cal_last_weekday_of_month.
Example cal_last_weekday_case : last_weekday_of_month 3 2024 2 = Ret (Some (Date 2024 2 29))
  /\ last_weekday_of_month 4 2024 2 = Ret (Some (Date 2024 2 23)).
Proof. split; reflexivity. Qed.

(** the weekday of the first day is right; that of the last day is the weekday
    of the first day of the following month, always one too late *)
Theorem cal_first_day_of_month : forall y m wd,
  first_day_of_month y m = Some wd <-> valid (Date y m 1) /\ wd = weekday (Date y m 1).
Proof.
  intros y m wd. unfold first_day_of_month, from_ymd. destruct (validb (Date y m 1)) eqn:E.
  - apply validb_valid in E. split; [intros H; injection H as <-; auto|intros [_ ->]; reflexivity].
  - split; [discriminate|]. intros [V _]. apply validb_valid in V. congruence.
Qed.
Print Assumptions cal_first_day_of_month.

Theorem cal_last_day_of_month_off_by_one : forall y m wd,
  1 <= m <= 12 -> last_day_of_month y m = Ret (Some wd) ->
  wd = (weekday (Date y m (month_length y m)) + 1) mod 7.
Proof.
  intros y m wd Hm H. unfold last_day_of_month in H.
  destruct (from_ymd y m 1) as [d|] eqn:E; [|discriminate].
  apply from_ymd_Some in E as [-> V]. apply bind_Ret_inv in H as (e & He & H). injection H as <-.
  pose proof (month_length_range y m) as R.
  destruct (Z_le_gt_dec (daynum (Date y m 1) + Z.of_nat (Z.to_nat (month_length y m))) (daynum date_max)) as [Q|Q].
  - destruct (daynum_surj _ V _ Q) as (e' & He' & Ve & Ne). rewrite He in He'. injection He' as <-.
    unfold weekday. rewrite Ne, first_of_month_num, last_of_month_num. rewrite Z2Nat.id by lia.
    Z.div_mod_to_equations. lia.
  - exfalso. revert He. generalize (Z.to_nat (month_length y m)) Q. clear - V.
    intros n Q He. assert (K : forall k d e, valid d -> add_days k d = Ret e -> valid e /\ daynum e = daynum d + Z.of_nat k).
    { induction k as [|k IH]; intros d e' Vd Hd; simpl in Hd.
      - injection Hd as <-. split; [assumption|lia].
      - destruct (next_day d) as [d'|] eqn:N; [|discriminate].
        destruct (next_day_spec d d' Vd N) as [V' N']. apply IH in Hd as [A B]; [|assumption].
        split; [assumption|lia]. }
    apply K in He as [Ve Ne]; [|assumption]. pose proof (daynum_le_max e Ve). lia.
Qed.
Print Assumptions cal_last_day_of_month_off_by_one.
Theorem cal_last_day_of_month_refuted : exists y m wd,
  last_day_of_month y m = Ret (Some wd) /\ wd <> weekday (Date y m (month_length y m)).
Proof. exists 2023, 9, 6. split; [reflexivity|discriminate]. Qed.
Print Assumptions cal_last_day_of_month_refuted.
Theorem cal_last_day_of_month_panics : last_day_of_month 9999 12 = Panic.
Proof. reflexivity. Qed.
Print Assumptions cal_last_day_of_month_panics.

(** end-of-month tests *)
Theorem cal_is_last_day_of_month : forall d d', valid d -> next_day d = Some d' ->
  (is_last_day_of_month d = true <-> month d' <> month d) /\
  (is_first_day_of_month d' = true <-> is_last_day_of_month d = true).
Proof.
  intros d d' V N. unfold is_last_day_of_month, is_first_day_of_month. rewrite !Z.eqb_eq.
  pose proof V as (A & B & C). pose proof (month_length_range (year d) (month d)) as R.
  unfold next_day in N. destruct (Z.ltb_spec (day d) (month_length (year d) (month d))) as [L|L].
  - injection N as <-. cbn [year month day]. split; split; intros; try lia; congruence.
  - destruct (Z.ltb_spec (month d) 12) as [L2|L2].
    + injection N as <-. cbn [year month day]. split; split; intros; lia.
    + destruct (year d <? 9999); [|discriminate]. injection N as <-. cbn [year month day]. split; split; intros; lia.
Qed.
Print Assumptions cal_is_last_day_of_month.
Theorem cal_is_last_day_of_february : forall d,
  is_last_day_of_february d = true <-> month d = 2 /\ is_last_day_of_month d = true.
Proof.
  intros [y m d]. unfold is_last_day_of_february, is_last_day_of_month, month_length. cbn [year month day].
  destruct (Z.eqb_spec m 2) as [->|]; cbn [andb orb].
  - destruct (is_leap y); cbn [negb]; rewrite ?andb_false_r, ?andb_true_r, ?orb_false_r, ?orb_false_l; intuition.
  - split; [discriminate|intuition].
Qed.
Print Assumptions cal_is_last_day_of_february.
Example cal_is_last_day_case :
  is_last_day_of_february (Date 2024 2 29) = true /\ is_last_day_of_february (Date 2024 2 28) = false /\
  is_last_day_of_month (Date 2023 4 30) = true.
Proof. repeat split; reflexivity. Qed.

(** leap years: every fourth, except centuries not divisible by 400 *)
Theorem cal_leap_years_in_range : forall a b,
  (contains_leap_year a b = true <-> exists y, year a <= y <= year b /\ is_leap y = true) /\
  exists l, leap_year_count a b = Z.of_nat (length l) /\ NoDup l /\
    forall y, In y l <-> year a <= y <= year b /\ is_leap y = true.
Proof.
  intros a b. split.
  - unfold contains_leap_year. rewrite existsb_exists. split.
    + intros (y & Hy & L). exists y. split; [apply years_in_range_In; assumption|assumption].
    + intros (y & Hy & L). exists y. split; [apply years_in_range_In; assumption|assumption].
  - exists (filter is_leap (years_in_range a b)). split; [reflexivity|]. split.
    + apply NoDup_filter, years_in_range_NoDup.
    + intros y. rewrite filter_In, years_in_range_In. reflexivity.
Qed.
Print Assumptions cal_leap_years_in_range.
Theorem cal_is_leap : forall y,
  is_leap y = true <-> (y mod 4 = 0 /\ (y mod 100 <> 0 \/ y mod 400 = 0)).
Proof.
  intros y. unfold is_leap. rewrite andb_true_iff, orb_true_iff, negb_true_iff, !Z.eqb_eq, Z.eqb_neq.
  reflexivity.
Qed.
Print Assumptions cal_is_leap.
Example cal_leap_case : leap_year_count (Date 2000 1 1) (Date 2024 1 1) = 7 /\ is_leap 1900 = false /\ is_leap 2000 = true.
Proof. repeat split; reflexivity. Qed.

(** days_between is a distance on dates *)
Theorem cal_days_between_metric : forall a b c, valid a -> valid b ->
  0 <= days_between a b /\ (days_between a b = 0 <-> a = b) /\ days_between a b = days_between b a /\
  days_between a c <= days_between a b + days_between b c.
Proof.
  intros a b c Va Vb. unfold days_between. split; [lia|]. split; [|split; lia].
  split; [|intros ->; lia]. intros H. apply daynum_inj; try assumption. lia.
Qed.
Print Assumptions cal_days_between_metric.
Example cal_days_between_case : days_between (Date 2023 1 1) (Date 2024 3 1) = 425.
Proof. reflexivity. Qed.

(** ** C56 what a business day is *)

(** A business day is a day that is not in the weekend (Friday and Saturday in
    Israel, Saturday and Sunday elsewhere), not an extra holiday and not a
    holiday of the market. *)
Theorem cal_business_day_iff : forall c d,
  (is_business_day c d = Ret true <->
   (if israel c then weekday d <> 4 /\ weekday d <> 5 else weekday d <> 5 /\ weekday d <> 6) /\
   ~ In d (extra c) /\ market_holiday c d = Some false) /\
  (is_business_day c d = Panic ->
   (if israel c then weekday d <> 4 /\ weekday d <> 5 else weekday d <> 5 /\ weekday d <> 6) /\
   market_holiday c d = None).
Proof.
  intros c d.
  assert (W : is_weekend c d = false <->
    (if israel c then weekday d <> 4 /\ weekday d <> 5 else weekday d <> 5 /\ weekday d <> 6)).
  { unfold is_weekend. destruct (israel c); rewrite orb_false_iff, !Z.eqb_neq; reflexivity. }
  rewrite <- W. rewrite <- is_extra_In. unfold is_business_day, is_holiday.
  destruct (is_weekend c d); [intuition discriminate|].
  destruct (is_extra c d); [simpl; intuition discriminate|].
  destruct (market_holiday c d) as [[]|]; simpl; intuition (try discriminate; try reflexivity; try congruence).
Qed.
Print Assumptions cal_business_day_iff.
Example cal_business_day_case :
  is_business_day (calendar_new true (fun _ => Some false)) (Date 2023 1 1) = Ret true /\
  is_business_day (calendar_new false (fun _ => Some false)) (Date 2023 1 1) = Ret false /\
  is_business_day (calendar_new true (fun _ => Some false)) (Date 2023 1 6) = Ret false /\
  is_business_day (calendar_new true (fun _ => Some false)) (Date 2023 1 7) = Ret false.
Proof. repeat split; reflexivity. Qed.

(** The market-independent weekend: the Saturdays and Sundays, counted in weeks from Saturday 6
    January 2024.  It is the weekend of every calendar but the Israeli one, from which it differs
    on Fridays and Sundays. *)
Theorem cal_weekend_util : forall d,
  (is_weekend_util d = true <-> exists w s, (s = 0 \/ s = 1) /\ daynum d = daynum (Date 2024 1 6) + 7 * w + s) /\
  is_weekday_util d = negb (is_weekend_util d) /\
  (forall c, israel c = false -> is_weekend_util d = is_weekend c d) /\
  (forall c, israel c = true -> (is_weekend_util d = is_weekend c d <-> weekday d <> 4 /\ weekday d <> 6)).
Proof.
  intros d. assert (B : 0 <= weekday d < 7) by (unfold weekday; apply Z.mod_pos_bound; lia). split; [|split; [reflexivity|split]].
  - unfold is_weekend_util. rewrite orb_true_iff, !Z.eqb_eq. unfold weekday. change (daynum (Date 2024 1 6)) with 738891. set (n := daynum d). clearbody n. clear. pose proof (Z.div_mod (n - 1) 7 ltac:(lia)) as E. split.
    + intros [H|H]; [exists ((n - 1) / 7 - 105555), 0|exists ((n - 1) / 7 - 105555), 1]; lia.
    + intros (w & s & [->| ->] & ->); [left|right]; [replace (738891 + 7 * w + 0 - 1) with (5 + (w + 105555) * 7) by ring|replace (738891 + 7 * w + 1 - 1) with (6 + (w + 105555) * 7) by ring]; rewrite Z.mod_add by lia; reflexivity.
  - intros c I. unfold is_weekend_util, is_weekend. rewrite I. reflexivity.
  - intros c I. unfold is_weekend_util, is_weekend. rewrite I. destruct (Z.eqb_spec (weekday d) 4), (Z.eqb_spec (weekday d) 5), (Z.eqb_spec (weekday d) 6); cbn; split; intros; try lia; try discriminate; try reflexivity; tauto.
Qed.
Print Assumptions cal_weekend_util.
Example cal_weekend_util_case : is_weekend_util (Date 2026 11 15) = true /\ is_weekend_util (Date 2026 11 16) = false.
Proof. split; reflexivity. Qed.

(** The year lengths of a range are the day counts from one New Year to the next; they add up to
    the days from the first New Year to the one after the last year.  Consecutive dates are one
    day apart. *)
Theorem cal_days_in_years : forall a b,
  (forall k n, nth_error (days_in_years_in_range a b) k = Some n <->
     year a + Z.of_nat k <= year b /\ n = daynum (Date (year a + Z.of_nat k + 1) 1 1) - daynum (Date (year a + Z.of_nat k) 1 1)) /\
  (year a <= year b + 1 -> fold_right Z.add 0 (days_in_years_in_range a b) = daynum (Date (year b + 1) 1 1) - daynum (Date (year a) 1 1)) /\
  (forall d d', valid d -> next_day d = Some d' -> days_between d d' = 1).
Proof.
  assert (STEP : forall y, days_in_year y = daynum (Date (y + 1) 1 1) - daynum (Date y 1 1)) by (intros y; unfold daynum, ordinal; cbn [year month day]; rewrite before_year_step; assert (J : forall y, before_month y 1 = 0) by (intros v; unfold before_month; destruct (is_leap v); reflexivity); rewrite !J; lia).
  intros a b. unfold days_in_years_in_range, years_in_range. rewrite map_map. split; [|split].
  - intros k n. rewrite nth_error_map. destruct (Nat.lt_ge_cases k (Z.to_nat (year b - year a + 1))) as [K|K].
    + rewrite (nth_error_nth' _ 0%nat) by (rewrite seq_length; exact K). rewrite seq_nth by exact K. cbn [option_map Nat.add]. rewrite STEP. split; [intros [= <-]; split; [lia|reflexivity]|intros [_ ->]; reflexivity].
    + rewrite (proj2 (nth_error_None _ _)) by (rewrite seq_length; exact K). split; [discriminate|]. intros [L _]. exfalso. lia.
  - intros L. remember (Z.to_nat (year b - year a + 1)) as m eqn:E. assert (YB : year b + 1 = year a + Z.of_nat m) by lia. rewrite YB. clear E YB L.
    assert (G : forall s, fold_right Z.add 0 (map (fun x => days_in_year (year a + Z.of_nat x)) (seq s m)) = daynum (Date (year a + Z.of_nat (s + m)) 1 1) - daynum (Date (year a + Z.of_nat s) 1 1)); [|rewrite G; cbn [Nat.add Z.of_nat]; rewrite Z.add_0_r; reflexivity].
    induction m as [|m IH]; intros s; cbn [seq map fold_right]; [rewrite Nat.add_0_r; lia|]. rewrite IH, STEP. replace (s + S m)%nat with (S s + m)%nat by lia. replace (year a + Z.of_nat s + 1) with (year a + Z.of_nat (S s)) by lia. lia.
  - intros d d' V N. destruct (next_day_spec d d' V N) as [_ E]. unfold days_between. rewrite E. lia.
Qed.
Print Assumptions cal_days_in_years.
Example cal_days_in_years_case : days_in_years_in_range (Date 2023 5 6) (Date 2025 1 1) = [365; 366; 365].
Proof. reflexivity. Qed.
