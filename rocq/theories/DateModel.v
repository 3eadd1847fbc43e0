(** Calendar dates, as provided by the [time] crate on which RustQuant builds.

    The crate is not part of /repo; this file models its documented behaviour:
    proleptic Gregorian dates with years -9999..9999, [Date::next_day] and
    [previous_day] ([None] outside the range), ordering, subtraction, weekdays
    (Monday = 0), ordinals, [Date::from_calendar_date],
    [next_occurrence]/[prev_occurrence]. *)
From Coq Require Import ZArith List Bool Lia.
From Verif Require Import Res.
Import ListNotations.
Open Scope Z_scope.

Record date := Date { year : Z; month : Z; day : Z }.

(** [time::util::is_leap_year] *)
Definition is_leap (y : Z) : bool :=
  (y mod 4 =? 0) && (negb (y mod 100 =? 0) || (y mod 400 =? 0)).
(** [time::util::days_in_year] *)
Definition days_in_year (y : Z) : Z := if is_leap y then 366 else 365.
(** [Month::length] *)
Definition month_length (y m : Z) : Z :=
  if m =? 2 then (if is_leap y then 29 else 28)
  else if (m =? 4) || (m =? 6) || (m =? 9) || (m =? 11) then 30 else 31.

Definition valid (d : date) : Prop :=
  -9999 <= year d <= 9999 /\ 1 <= month d <= 12 /\ 1 <= day d <= month_length (year d) (month d).
Definition validb (d : date) : bool :=
  (-9999 <=? year d) && (year d <=? 9999) && (1 <=? month d) && (month d <=? 12) &&
  (1 <=? day d) && (day d <=? month_length (year d) (month d)).

(** days before January 1st of year [y], counted from 0001-01-01 *)
Definition before_year (y : Z) : Z :=
  365 * (y - 1) + (y - 1) / 4 - (y - 1) / 100 + (y - 1) / 400.
(** days of year [y] before the first of month [m] *)
Definition before_month (y m : Z) : Z :=
  (if m =? 1 then 0 else if m =? 2 then 31 else if m =? 3 then 59 else if m =? 4 then 90
   else if m =? 5 then 120 else if m =? 6 then 151 else if m =? 7 then 181 else if m =? 8 then 212
   else if m =? 9 then 243 else if m =? 10 then 273 else if m =? 11 then 304 else 334)
  + (if (2 <? m) && is_leap y then 1 else 0).
(** [Date::ordinal], the day of the year *)
Definition ordinal (d : date) : Z := before_month (year d) (month d) + day d.
(** day number; 0001-01-01 has number 1 *)
Definition daynum (d : date) : Z := before_year (year d) + ordinal d.
(** [Date::weekday], Monday = 0 (0001-01-01 is a Monday) *)
Definition weekday (d : date) : Z := (daynum d - 1) mod 7.

Definition date_eqb (a b : date) : bool :=
  (year a =? year b) && (month a =? month b) && (day a =? day b).
(** derived [Ord] on dates: year, then month, then day *)
Definition date_ltb (a b : date) : bool :=
  (year a <? year b) ||
  ((year a =? year b) && ((month a <? month b) ||
    ((month a =? month b) && (day a <? day b)))).
Definition date_leb (a b : date) : bool := negb (date_ltb b a).

(** [Date::from_calendar_date] *)
Definition from_ymd (y m d : Z) : option date :=
  let r := Date y m d in if validb r then Some r else None.

(** [Date::next_day], [Date::previous_day] *)
Definition next_day (d : date) : option date :=
  if day d <? month_length (year d) (month d) then Some (Date (year d) (month d) (day d + 1))
  else if month d <? 12 then Some (Date (year d) (month d + 1) 1)
  else if year d <? 9999 then Some (Date (year d + 1) 1 1) else None.
Definition previous_day (d : date) : option date :=
  if 1 <? day d then Some (Date (year d) (month d) (day d - 1))
  else if 1 <? month d then Some (Date (year d) (month d - 1) (month_length (year d) (month d - 1)))
  else if -9999 <? year d then Some (Date (year d - 1) 12 31) else None.

(** [date + Duration::days(k)], [date - Duration::days(k)] for k >= 0: panic
    outside the range *)
Fixpoint add_days (k : nat) (d : date) : res date :=
  match k with O => Ret d | S k' => let! d' := unwrap (next_day d) in add_days k' d' end.
Fixpoint sub_days (k : nat) (d : date) : res date :=
  match k with O => Ret d | S k' => let! d' := unwrap (previous_day d) in sub_days k' d' end.

(** [Date::next_occurrence]: strictly after; [prev_occurrence]: strictly before *)
Definition next_occurrence (wd : Z) (d : date) : res date :=
  add_days (Z.to_nat ((wd - weekday d - 1) mod 7 + 1)) d.
Definition prev_occurrence (wd : Z) (d : date) : res date :=
  sub_days (Z.to_nat ((weekday d - wd - 1) mod 7 + 1)) d.

Definition date_max : date := Date 9999 12 31.
Definition date_min : date := Date (-9999) 1 1.

(** ** Facts about day numbers *)

Lemma validb_valid d : validb d = true <-> valid d.
Proof. unfold validb, valid. rewrite !andb_true_iff, !Z.leb_le. tauto. Qed.

Lemma from_ymd_Some y m d r : from_ymd y m d = Some r -> r = Date y m d /\ valid r.
Proof.
  unfold from_ymd. destruct (validb (Date y m d)) eqn:E; [|discriminate].
  intros [= <-]. split; [reflexivity|]. apply validb_valid; assumption.
Qed.

Lemma before_year_step y : before_year (y + 1) = before_year y + days_in_year y.
Proof.
  unfold before_year, days_in_year, is_leap.
  replace (y + 1 - 1) with y by lia.
  destruct (Z.eqb_spec (y mod 4) 0), (Z.eqb_spec (y mod 100) 0), (Z.eqb_spec (y mod 400) 0);
    cbn [andb orb negb]; Z.div_mod_to_equations; lia.
Qed.

Lemma before_year_le y1 y2 : y1 <= y2 -> before_year y1 <= before_year y2.
Proof.
  intros H. replace y2 with (y1 + Z.of_nat (Z.to_nat (y2 - y1))) by lia.
  induction (Z.to_nat (y2 - y1)) as [|n IH]; [rewrite Z.add_0_r; lia|].
  rewrite Nat2Z.inj_succ. replace (y1 + Z.succ (Z.of_nat n)) with (y1 + Z.of_nat n + 1) by lia.
  rewrite before_year_step. unfold days_in_year. destruct (is_leap _); lia.
Qed.

Lemma month_length_range y m : 28 <= month_length y m <= 31.
Proof.
  unfold month_length. destruct (m =? 2); [destruct (is_leap y); lia|].
  destruct (_ || _); lia.
Qed.

Ltac cases_month m :=
  assert (m = 1 \/ m = 2 \/ m = 3 \/ m = 4 \/ m = 5 \/ m = 6 \/ m = 7 \/ m = 8 \/ m = 9 \/
          m = 10 \/ m = 11 \/ m = 12) as Hcases by lia;
  destruct Hcases as [->|[->|[->|[->|[->|[->|[->|[->|[->|[->|[->| ->]]]]]]]]]]].

Lemma before_month_step y m : 1 <= m <= 11 ->
  before_month y (m + 1) = before_month y m + month_length y m.
Proof.
  intros H. cases_month m; try lia; unfold before_month, month_length; simpl; destruct (is_leap y); reflexivity.
Qed.

Lemma before_month_last y : before_month y 12 + 31 = days_in_year y.
Proof. unfold before_month, days_in_year; simpl. destruct (is_leap y); reflexivity. Qed.

Lemma before_month_first y : before_month y 1 = 0.
Proof. reflexivity. Qed.

Lemma before_month_lt y m1 m2 : 1 <= m1 -> m1 < m2 -> m2 <= 12 ->
  before_month y m1 + month_length y m1 <= before_month y m2.
Proof.
  intros H1 H2 H3. cases_month m1; cases_month m2; try lia;
    unfold before_month, month_length; simpl; destruct (is_leap y); simpl; lia.
Qed.

Lemma ordinal_range d : valid d -> 1 <= ordinal d <= days_in_year (year d).
Proof.
  intros (Hy & Hm & Hd). unfold ordinal. destruct d as [y m d]; simpl in *.
  split.
  - assert (0 <= before_month y m) by (cases_month m; unfold before_month; simpl; destruct (is_leap y); simpl; lia).
    lia.
  - rewrite <- before_month_last.
    destruct (Z.eq_dec m 12) as [->|Hn]; [change (month_length y 12) with 31 in Hd; lia|].
    pose proof (before_month_lt y m 12). lia.
Qed.

Lemma daynum_lt a b : valid a -> valid b -> (date_ltb a b = true <-> daynum a < daynum b).
Proof.
  intros Ha Hb. pose proof (ordinal_range a Ha) as Oa. pose proof (ordinal_range b Hb) as Ob.
  assert (Key : forall a b, valid a -> valid b -> date_ltb a b = true -> daynum a < daynum b).
  { clear. intros a b Ha Hb H. pose proof (ordinal_range a Ha) as Oa. pose proof (ordinal_range b Hb) as Ob.
    unfold date_ltb in H. unfold daynum.
    apply orb_true_iff in H as [H|H].
    - apply Z.ltb_lt in H. pose proof (before_year_step (year a)).
      pose proof (before_year_le (year a + 1) (year b)). lia.
    - apply andb_true_iff in H as [Ey H]. apply Z.eqb_eq in Ey. rewrite Ey.
      destruct Ha as (_ & Hma & Hda), Hb as (_ & Hmb & Hdb). unfold ordinal. rewrite Ey in *.
      apply orb_true_iff in H as [H|H].
      + apply Z.ltb_lt in H. pose proof (before_month_lt (year b) (month a) (month b)). lia.
      + apply andb_true_iff in H as [Em H]. apply Z.eqb_eq in Em. apply Z.ltb_lt in H. rewrite Em. lia. }
  split; [apply Key; assumption|]. intros H.
  destruct (date_ltb a b) eqn:E; [reflexivity|]. exfalso.
  assert (T : date_ltb b a = true \/ a = b).
  { unfold date_ltb in E |- *. destruct a as [ya ma da], b as [yb mb db]; simpl in *.
    destruct (Z.lt_trichotomy ya yb) as [L|[->|L]].
    - apply Z.ltb_lt in L. rewrite L in E. discriminate.
    - rewrite Z.ltb_irrefl, Z.eqb_refl in *. simpl in *.
      destruct (Z.lt_trichotomy ma mb) as [L|[->|L]].
      + apply Z.ltb_lt in L. rewrite L in E. discriminate.
      + rewrite Z.ltb_irrefl, Z.eqb_refl in *. simpl in *.
        destruct (Z.lt_trichotomy da db) as [L|[->|L]].
        * apply Z.ltb_lt in L. rewrite L in E. discriminate.
        * right; reflexivity.
        * left. apply Z.ltb_lt. assumption.
      + left. apply Z.ltb_lt in L. rewrite L. reflexivity.
    - left. apply Z.ltb_lt in L. rewrite L. reflexivity. }
  destruct T as [T| ->]; [|lia]. apply (Key b a Hb Ha) in T. lia.
Qed.

Lemma daynum_le a b : valid a -> valid b -> (date_leb a b = true <-> daynum a <= daynum b).
Proof.
  intros Ha Hb. unfold date_leb. rewrite negb_true_iff.
  pose proof (daynum_lt b a Hb Ha) as H. destruct (date_ltb b a).
  - split; [discriminate|]. intros. assert (daynum b < daynum a) by (apply H; reflexivity). lia.
  - split; [|reflexivity]. intros _. destruct (Z_lt_le_dec (daynum b) (daynum a)) as [L|L]; [|lia].
    apply H in L. discriminate.
Qed.

Lemma daynum_inj a b : valid a -> valid b -> daynum a = daynum b -> a = b.
Proof.
  intros Ha Hb H.
  destruct (date_ltb a b) eqn:E1; [apply daynum_lt in E1; try assumption; lia|].
  destruct (date_ltb b a) eqn:E2; [apply daynum_lt in E2; try assumption; lia|].
  unfold date_ltb in *. destruct a as [ya ma da], b as [yb mb db]; simpl in *.
  apply orb_false_iff in E1 as [E1 F1], E2 as [E2 F2].
  apply Z.ltb_ge in E1, E2. assert (ya = yb) by lia. subst. rewrite Z.eqb_refl in *. simpl in *.
  apply orb_false_iff in F1 as [E3 F1], F2 as [E4 F2]. apply Z.ltb_ge in E3, E4.
  assert (ma = mb) by lia. subst. rewrite Z.eqb_refl in *. simpl in *. apply Z.ltb_ge in F1, F2.
  assert (da = db) by lia. subst. reflexivity.
Qed.

Lemma date_eqb_eq a b : date_eqb a b = true <-> a = b.
Proof.
  unfold date_eqb. rewrite !andb_true_iff, !Z.eqb_eq. destruct a, b; simpl. split.
  - intros [[-> ->] ->]. reflexivity.
  - intros [= -> -> ->]. auto.
Qed.

Lemma next_day_spec d d' : valid d -> next_day d = Some d' -> valid d' /\ daynum d' = daynum d + 1.
Proof.
  intros (Hy & Hm & Hd) H. unfold next_day in H. destruct d as [y m dd]; simpl in *.
  destruct (Z.ltb_spec dd (month_length y m)) as [L|L].
  - injection H as <-. split; [repeat split; simpl; lia|]. unfold daynum, ordinal; simpl. lia.
  - destruct (Z.ltb_spec m 12) as [L2|L2].
    + injection H as <-. split.
      * pose proof (month_length_range y (m + 1)). repeat split; simpl; lia.
      * unfold daynum, ordinal; simpl. rewrite before_month_step by lia. lia.
    + destruct (Z.ltb_spec y 9999) as [L3|L3]; [|discriminate]. injection H as <-.
      assert (m = 12) by lia. subst m. change (month_length y 12) with 31 in *. split.
      * repeat split; simpl; try lia. change (month_length (y + 1) 1) with 31. lia.
      * unfold daynum, ordinal; simpl. rewrite before_year_step, <- before_month_last.
        change (before_month (y + 1) 1) with 0. lia.
Qed.

Lemma next_day_None d : valid d -> next_day d = None -> d = date_max.
Proof.
  intros (Hy & Hm & Hd) H. unfold next_day in H. destruct d as [y m dd]; simpl in *.
  destruct (Z.ltb_spec dd (month_length y m)) as [L|L]; [discriminate|].
  destruct (Z.ltb_spec m 12) as [L2|L2]; [discriminate|].
  destruct (Z.ltb_spec y 9999) as [L3|L3]; [discriminate|].
  assert (m = 12) by lia. subst. change (month_length y 12) with 31 in *.
  unfold date_max. f_equal; lia.
Qed.

Lemma previous_day_spec d d' : valid d -> previous_day d = Some d' -> valid d' /\ daynum d' = daynum d - 1.
Proof.
  intros (Hy & Hm & Hd) H. unfold previous_day in H. destruct d as [y m dd]; simpl in *.
  destruct (Z.ltb_spec 1 dd) as [L|L].
  - injection H as <-. split; [repeat split; simpl; lia|]. unfold daynum, ordinal; simpl. lia.
  - destruct (Z.ltb_spec 1 m) as [L2|L2].
    + injection H as <-. pose proof (month_length_range y (m - 1)) as R. split.
      * repeat split; simpl; lia.
      * unfold daynum, ordinal; simpl. pose proof (before_month_step y (m - 1)) as E.
        replace (m - 1 + 1) with m in E by lia. lia.
    + destruct (Z.ltb_spec (-9999) y) as [L3|L3]; [|discriminate]. injection H as <-.
      assert (m = 1) by lia. subst m. split.
      * repeat split; simpl; try lia. change (month_length (y - 1) 12) with 31. lia.
      * unfold daynum, ordinal; simpl. pose proof (before_year_step (y - 1)) as E.
        replace (y - 1 + 1) with y in E by lia. pose proof (before_month_last (y - 1)).
        change (before_month y 1) with 0. lia.
Qed.

Lemma previous_day_None d : valid d -> previous_day d = None -> d = date_min.
Proof.
  intros (Hy & Hm & Hd) H. unfold previous_day in H. destruct d as [y m dd]; simpl in *.
  destruct (Z.ltb_spec 1 dd) as [L|L]; [discriminate|].
  destruct (Z.ltb_spec 1 m) as [L2|L2]; [discriminate|].
  destruct (Z.ltb_spec (-9999) y) as [L3|L3]; [discriminate|].
  unfold date_min. f_equal; lia.
Qed.

Lemma valid_max : valid date_max.
Proof. apply validb_valid. reflexivity. Qed.
Lemma valid_min : valid date_min.
Proof. apply validb_valid. reflexivity. Qed.

Lemma daynum_le_max d : valid d -> daynum d <= daynum date_max.
Proof.
  intros H. apply daynum_le; [assumption|exact valid_max|].
  unfold date_leb, date_ltb, date_max; cbn [year month day]. destruct H as (Hy & Hm & Hd).
  destruct (Z.ltb_spec 9999 (year d)); [lia|]. cbn [orb andb negb].
  destruct (Z.eqb_spec 9999 (year d)) as [E|]; [|reflexivity]. cbn [orb andb negb].
  destruct (Z.ltb_spec 12 (month d)); [lia|]. cbn [orb andb negb].
  destruct (Z.eqb_spec 12 (month d)) as [E2|]; [|reflexivity]. cbn [orb andb negb].
  pose proof (month_length_range (year d) (month d)).
  destruct (Z.ltb_spec 31 (day d)); [lia|reflexivity].
Qed.

Lemma daynum_ge_min d : valid d -> daynum date_min <= daynum d.
Proof.
  intros H. apply daynum_le; [exact valid_min|assumption|].
  unfold date_leb, date_ltb, date_min; cbn [year month day]. destruct H as (Hy & Hm & Hd).
  destruct (Z.ltb_spec (year d) (-9999)); [lia|]. cbn [orb andb negb].
  destruct (Z.eqb_spec (year d) (-9999)) as [E|]; [|reflexivity]. cbn [orb andb negb].
  destruct (Z.ltb_spec (month d) 1); [lia|]. cbn [orb andb negb].
  destruct (Z.eqb_spec (month d) 1) as [E2|]; [|reflexivity]. cbn [orb andb negb].
  destruct (Z.ltb_spec (day d) 1); [lia|reflexivity].
Qed.

(** every day number in range is a date *)
Lemma daynum_surj d : valid d -> forall k : nat, daynum d + Z.of_nat k <= daynum date_max ->
  exists e, add_days k d = Ret e /\ valid e /\ daynum e = daynum d + Z.of_nat k.
Proof.
  intros Hd k; revert d Hd; induction k as [|k IH]; intros d Hd Hk; simpl.
  - exists d. repeat split; try lia; apply Hd.
  - destruct (next_day d) as [d'|] eqn:E.
    + destruct (next_day_spec d d' Hd E) as [V N]. simpl.
      destruct (IH d' V) as (e & Ee & Ve & Ne); [lia|]. exists e. repeat split; try apply Ve; [exact Ee|lia].
    + apply next_day_None in E; [|assumption]. subst. lia.
Qed.

Lemma sub_days_spec d : valid d -> forall k : nat, daynum date_min <= daynum d - Z.of_nat k ->
  exists e, sub_days k d = Ret e /\ valid e /\ daynum e = daynum d - Z.of_nat k.
Proof.
  intros Hd k; revert d Hd; induction k as [|k IH]; intros d Hd Hk; simpl.
  - exists d. repeat split; try lia; apply Hd.
  - destruct (previous_day d) as [d'|] eqn:E.
    + destruct (previous_day_spec d d' Hd E) as [V N]. simpl.
      destruct (IH d' V) as (e & Ee & Ve & Ne); [lia|]. exists e. repeat split; try apply Ve; [exact Ee|lia].
    + apply previous_day_None in E; [|assumption]. subst. lia.
Qed.

Lemma date_of_num n : daynum date_min <= n <= daynum date_max -> exists d, valid d /\ daynum d = n.
Proof.
  intros H. destruct (daynum_surj date_min valid_min (Z.to_nat (n - daynum date_min))) as (e & _ & V & N); [lia|].
  exists e. split; [assumption|lia].
Qed.

(** two dates of one month: every date between them is in that month *)
Lemma same_month_between a b e : valid a -> valid b -> valid e ->
  year a = year b -> month a = month b -> daynum a <= daynum e <= daynum b ->
  year e = year a /\ month e = month a.
Proof.
  intros Ha Hb He Ey Em [L1 L2].
  apply daynum_le in L1; [|assumption|assumption]. apply daynum_le in L2; [|assumption|assumption].
  unfold date_leb, date_ltb in *. apply negb_true_iff in L1, L2.
  apply orb_false_iff in L1 as [A1 B1], L2 as [A2 B2]. apply Z.ltb_ge in A1, A2.
  assert (year e = year a) by lia. split; [assumption|].
  rewrite H, Z.eqb_refl in B1. rewrite H, Ey, Z.eqb_refl in B2. simpl in *.
  apply orb_false_iff in B1 as [B1 _], B2 as [B2 _]. apply Z.ltb_ge in B1, B2. lia.
Qed.

Lemma first_of_month_num y m : daynum (Date y m 1) = before_year y + before_month y m + 1.
Proof. unfold daynum, ordinal; simpl. lia. Qed.
Lemma last_of_month_num y m :
  daynum (Date y m (month_length y m)) = before_year y + before_month y m + month_length y m.
Proof. unfold daynum, ordinal; simpl. lia. Qed.

Lemma in_month_num y m d : valid (Date y m 1) -> valid d ->
  (year d = y /\ month d = m <->
   daynum (Date y m 1) <= daynum d <= daynum (Date y m (month_length y m))).
Proof.
  intros V Hd. assert (VL : valid (Date y m (month_length y m))).
  { destruct V as (A & B & C). simpl in *. pose proof (month_length_range y m). repeat split; simpl; lia. }
  split.
  - intros [<- <-]. destruct Hd as (_ & _ & Hd). unfold daynum, ordinal; simpl. lia.
  - intros H. destruct (same_month_between _ _ d V VL Hd eq_refl eq_refl H) as [A B]. split; assumption.
Qed.

Lemma weekday_range d : 0 <= weekday d <= 6.
Proof. unfold weekday. pose proof (Z.mod_pos_bound (daynum d - 1) 7). lia. Qed.
