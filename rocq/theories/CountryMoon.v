(** C97: the tables of movable feasts follow the moon, and agree across countries. *)
From Coq Require Import ZArith List Bool Lia.
From Verif Require Import Res DateModel CalModel CountryModel CountrySpec CountryProps.
Import ListNotations.
Open Scope Z_scope.

(** ** The mean moon
    Stated without reference to the tables: lunations of 29.530588853 days (2551442877
    milliseconds) counted from the new moon of 6 January 2000, 18:14 UT. *)
Definition lunation : Z := 2551442877.
Definition hour_ms : Z := 3600000.
(** milliseconds from that new moon to noon of the day at UTC+8 (04:00 UT) *)
Definition since_new_moon (d : date) : Z :=
  24 * hour_ms * (daynum d - daynum (Date 2000 1 6)) + 4 * hour_ms - 18 * hour_ms - 14 * 60000.
(** the noon of [d] lies between [lo] and [hi] hours after a mean new moon *)
Definition moon_hours (lo hi : Z) (d : date) : Prop :=
  exists k, lo * hour_ms <= since_new_moon d - k * lunation <= hi * hour_ms.

Definition table := Z -> Z -> Z -> Z -> Z -> Z -> bool.
Definition on (t : table) (d : date) : Prop := t (year d) (month d) (day d) (weekday d) (ordinal d) 0 = true.

(** *** deciding it *)
Definition moon_hoursb (lo hi : Z) (d : date) : bool :=
  let k := (since_new_moon d - lo * hour_ms) / lunation in
  (lo * hour_ms <=? since_new_moon d - k * lunation) && (since_new_moon d - k * lunation <=? hi * hour_ms).
Lemma moon_hoursb_ok lo hi d : moon_hoursb lo hi d = true -> moon_hours lo hi d.
Proof.
  unfold moon_hoursb. intros H. apply andb_true_iff in H. destruct H as [A B].
  eexists. split; [exact (proj1 (Z.leb_le _ _) A)|exact (proj1 (Z.leb_le _ _) B)].
Qed.

Definition zseq (a : Z) (n : nat) : list Z := map (fun i => a + Z.of_nat i) (seq 0 n).
Lemma In_zseq a n x : a <= x < a + Z.of_nat n -> In x (zseq a n).
Proof.
  intros H. unfold zseq. apply in_map_iff. exists (Z.to_nat (x - a)). split; [lia|]. apply in_seq. lia.
Qed.
Definition all_dates (y0 : Z) (n : nat) : list date :=
  flat_map (fun y => flat_map (fun m => map (fun k => Date y m k) (zseq 1 31)) (zseq 1 12)) (zseq y0 n).
Definition entries (t : table) (y0 : Z) (n : nat) : list date :=
  filter (fun d => t (year d) (month d) (day d) 0 0 0) (all_dates y0 n).
Definition spans (t : table) (y0 : Z) (n : nat) : Prop :=
  forall y m d wd yd em, t y m d wd yd em = true ->
    y0 <= y < y0 + Z.of_nat n /\ 1 <= m <= 12 /\ 1 <= d <= 31 /\ t y m d 0 0 0 = true.
Lemma on_entries t y0 n d : spans t y0 n -> on t d -> In d (entries t y0 n).
Proof.
  intros S H. destruct (S _ _ _ _ _ _ H) as (A & B & C & D). apply filter_In. split; [|exact D].
  apply in_flat_map. exists (year d). split; [apply In_zseq; exact A|].
  apply in_flat_map. exists (month d). split; [apply In_zseq; lia|].
  apply in_map_iff. exists (day d). split; [destruct d; reflexivity|]. apply In_zseq. lia.
Qed.
Lemma by_entries t y0 n (P : date -> bool) : spans t y0 n -> forallb P (entries t y0 n) = true -> forall d, on t d -> P d = true.
Proof. intros S H d O. rewrite forallb_forall in H. apply H. apply on_entries; assumption. Qed.
Ltac spans_tac t :=
  let y := fresh "y" in let m := fresh "m" in let k := fresh "k" in let H := fresh "H" in
  intros y m k ? ? ? H; assert (t y m k 0 0 0 = true) by (exact H); unfold t in H; breakH;
  (split; [cbv - [Z.le Z.lt]; lia|]); (split; [lia|]); (split; [lia|]); assumption.
Lemma hong_kong_buddhas_birthday_spans : spans hong_kong_buddhas_birthday 2004 17. Proof. spans_tac hong_kong_buddhas_birthday. Qed.
Lemma hong_kong_ching_ming_festival_spans : spans hong_kong_ching_ming_festival 2004 17. Proof. spans_tac hong_kong_ching_ming_festival. Qed.
Lemma hong_kong_chung_yeung_festival_spans : spans hong_kong_chung_yeung_festival 2004 17. Proof. spans_tac hong_kong_chung_yeung_festival. Qed.
Lemma hong_kong_lunar_new_year_spans : spans hong_kong_lunar_new_year 2004 17. Proof. spans_tac hong_kong_lunar_new_year. Qed.
Lemma hong_kong_mid_autumn_festival_spans : spans hong_kong_mid_autumn_festival 2004 17. Proof. spans_tac hong_kong_mid_autumn_festival. Qed.
Lemma hong_kong_second_day_after_christmas_spans : spans hong_kong_second_day_after_christmas 2004 17. Proof. spans_tac hong_kong_second_day_after_christmas. Qed.
Lemma hong_kong_tuen_ng_festival_spans : spans hong_kong_tuen_ng_festival 2004 17. Proof. spans_tac hong_kong_tuen_ng_festival. Qed.
Lemma india_bakri_id_spans : spans india_bakri_id 2000 30. Proof. spans_tac india_bakri_id. Qed.
Lemma india_diwali_spans : spans india_diwali 2000 30. Proof. spans_tac india_diwali. Qed.
Lemma india_dussehra_spans : spans india_dussehra 2000 30. Proof. spans_tac india_dussehra. Qed.
Lemma india_eid_ul_fitar_spans : spans india_eid_ul_fitar 2000 30. Proof. spans_tac india_eid_ul_fitar. Qed.
Lemma india_gurunanak_jayanti_spans : spans india_gurunanak_jayanti 2005 21. Proof. spans_tac india_gurunanak_jayanti. Qed.
Lemma india_holi_spans : spans india_holi 2000 30. Proof. spans_tac india_holi. Qed.
Lemma india_mahashivratri_spans : spans india_mahashivratri 2000 30. Proof. spans_tac india_mahashivratri. Qed.
Lemma india_mahavir_jayanti_spans : spans india_mahavir_jayanti 2005 21. Proof. spans_tac india_mahavir_jayanti. Qed.
Lemma india_muharram_spans : spans india_muharram 2007 23. Proof. spans_tac india_muharram. Qed.
Lemma india_rama_navami_spans : spans india_rama_navami 2000 30. Proof. spans_tac india_rama_navami. Qed.
Lemma indonesia_ascension_day_of_prophet_muhammad_spans : spans indonesia_ascension_day_of_prophet_muhammad 2000 25. Proof. spans_tac indonesia_ascension_day_of_prophet_muhammad. Qed.
Lemma indonesia_birth_of_prophet_muhammad_spans : spans indonesia_birth_of_prophet_muhammad 2006 20. Proof. spans_tac indonesia_birth_of_prophet_muhammad. Qed.
Lemma indonesia_eid_ul_adha_spans : spans indonesia_eid_ul_adha 2019 7. Proof. spans_tac indonesia_eid_ul_adha. Qed.
Lemma indonesia_eid_ul_fitar_spans : spans indonesia_eid_ul_fitar 2006 20. Proof. spans_tac indonesia_eid_ul_fitar. Qed.
Lemma indonesia_hindu_new_year_spans : spans indonesia_hindu_new_year 2006 19. Proof. spans_tac indonesia_hindu_new_year. Qed.
Lemma indonesia_lunar_new_year_spans : spans indonesia_lunar_new_year 2000 26. Proof. spans_tac indonesia_lunar_new_year. Qed.
Lemma indonesia_muharram_spans : spans indonesia_muharram 2000 26. Proof. spans_tac indonesia_muharram. Qed.
Lemma indonesia_vesak_day_spans : spans indonesia_vesak_day 2007 19. Proof. spans_tac indonesia_vesak_day. Qed.
Lemma singapore_chinese_new_year_spans : spans singapore_chinese_new_year 2004 21. Proof. spans_tac singapore_chinese_new_year. Qed.
Lemma singapore_deepavali_spans : spans singapore_deepavali 2004 21. Proof. spans_tac singapore_deepavali. Qed.
Lemma singapore_hari_raya_haji_spans : spans singapore_hari_raya_haji 2004 21. Proof. spans_tac singapore_hari_raya_haji. Qed.
Lemma singapore_hari_raya_puasa_spans : spans singapore_hari_raya_puasa 2004 21. Proof. spans_tac singapore_hari_raya_puasa. Qed.
Lemma singapore_vesak_day_spans : spans singapore_vesak_day 2004 21. Proof. spans_tac singapore_vesak_day. Qed.

(** every table with the first year and the number of years it covers *)
Definition feast_tables : list (table * Z * nat) :=
  [ (hong_kong_buddhas_birthday, 2004, 17%nat);
    (hong_kong_ching_ming_festival, 2004, 17%nat);
    (hong_kong_chung_yeung_festival, 2004, 17%nat);
    (hong_kong_lunar_new_year, 2004, 17%nat);
    (hong_kong_mid_autumn_festival, 2004, 17%nat);
    (hong_kong_second_day_after_christmas, 2004, 17%nat);
    (hong_kong_tuen_ng_festival, 2004, 17%nat);
    (india_bakri_id, 2000, 30%nat);
    (india_diwali, 2000, 30%nat);
    (india_dussehra, 2000, 30%nat);
    (india_eid_ul_fitar, 2000, 30%nat);
    (india_gurunanak_jayanti, 2005, 21%nat);
    (india_holi, 2000, 30%nat);
    (india_mahashivratri, 2000, 30%nat);
    (india_mahavir_jayanti, 2005, 21%nat);
    (india_muharram, 2007, 23%nat);
    (india_rama_navami, 2000, 30%nat);
    (indonesia_ascension_day_of_prophet_muhammad, 2000, 25%nat);
    (indonesia_birth_of_prophet_muhammad, 2006, 20%nat);
    (indonesia_eid_ul_adha, 2019, 7%nat);
    (indonesia_eid_ul_fitar, 2006, 20%nat);
    (indonesia_hindu_new_year, 2006, 19%nat);
    (indonesia_lunar_new_year, 2000, 26%nat);
    (indonesia_muharram, 2000, 26%nat);
    (indonesia_vesak_day, 2007, 19%nat);
    (singapore_chinese_new_year, 2004, 21%nat);
    (singapore_deepavali, 2004, 21%nat);
    (singapore_hari_raya_haji, 2004, 21%nat);
    (singapore_hari_raya_puasa, 2004, 21%nat);
    (singapore_vesak_day, 2004, 21%nat) ].
Lemma feast_spans : forall t y0 n, In (t, y0, n) feast_tables -> spans t y0 n.
Proof.
  intros t y0 n H. unfold feast_tables in H. cbn [In] in H.
  repeat (destruct H as [H|H]; [injection H as <- <- <-; first [exact hong_kong_buddhas_birthday_spans | exact hong_kong_ching_ming_festival_spans | exact hong_kong_chung_yeung_festival_spans | exact hong_kong_lunar_new_year_spans | exact hong_kong_mid_autumn_festival_spans | exact hong_kong_second_day_after_christmas_spans | exact hong_kong_tuen_ng_festival_spans | exact india_bakri_id_spans | exact india_diwali_spans | exact india_dussehra_spans | exact india_eid_ul_fitar_spans | exact india_gurunanak_jayanti_spans | exact india_holi_spans | exact india_mahashivratri_spans | exact india_mahavir_jayanti_spans | exact india_muharram_spans | exact india_rama_navami_spans | exact indonesia_ascension_day_of_prophet_muhammad_spans | exact indonesia_birth_of_prophet_muhammad_spans | exact indonesia_eid_ul_adha_spans | exact indonesia_eid_ul_fitar_spans | exact indonesia_hindu_new_year_spans | exact indonesia_lunar_new_year_spans | exact indonesia_muharram_spans | exact indonesia_vesak_day_spans | exact singapore_chinese_new_year_spans | exact singapore_deepavali_spans | exact singapore_hari_raya_haji_spans | exact singapore_hari_raya_puasa_spans | exact singapore_vesak_day_spans]|]). destruct H.
Qed.

(** ** Every entry is a date of the calendar and lies in the years of its table *)
Theorem feast_valid : forall t y0 n d, In (t, y0, n) feast_tables -> on t d -> valid d /\ y0 <= year d < y0 + Z.of_nat n.
Proof.
  intros t y0 n d H O. split; [|apply (feast_spans t y0 n H _ _ _ _ _ _ O)]. apply validb_valid.
  refine (by_entries t y0 n validb (feast_spans t y0 n H) _ d O).
  assert (A : forallb (fun r => forallb validb (entries (fst (fst r)) (snd (fst r)) (snd r))) feast_tables = true) by (vm_compute; reflexivity).
  rewrite forallb_forall in A. exact (A (t, y0, n) H).
Qed.
Print Assumptions feast_valid.

(** ** In every year of these tables there is a feast *)
Definition yearly : list (table * Z * Z) :=
  [ (hong_kong_buddhas_birthday, 2004, 2020);
    (hong_kong_ching_ming_festival, 2004, 2020);
    (hong_kong_chung_yeung_festival, 2004, 2020);
    (hong_kong_lunar_new_year, 2004, 2020);
    (hong_kong_mid_autumn_festival, 2004, 2020);
    (hong_kong_second_day_after_christmas, 2004, 2020);
    (hong_kong_tuen_ng_festival, 2004, 2020);
    (india_bakri_id, 2000, 2029);
    (india_diwali, 2000, 2029);
    (india_dussehra, 2000, 2029);
    (india_eid_ul_fitar, 2000, 2029);
    (india_gurunanak_jayanti, 2005, 2025);
    (india_holi, 2000, 2029);
    (india_mahashivratri, 2000, 2029);
    (india_mahavir_jayanti, 2005, 2025);
    (india_rama_navami, 2000, 2029);
    (indonesia_ascension_day_of_prophet_muhammad, 2000, 2024);
    (indonesia_birth_of_prophet_muhammad, 2006, 2025);
    (indonesia_eid_ul_adha, 2019, 2025);
    (indonesia_hindu_new_year, 2006, 2024);
    (indonesia_lunar_new_year, 2000, 2025);
    (indonesia_muharram, 2000, 2025);
    (indonesia_vesak_day, 2007, 2025);
    (singapore_chinese_new_year, 2004, 2024);
    (singapore_deepavali, 2004, 2024);
    (singapore_hari_raya_haji, 2004, 2024);
    (singapore_hari_raya_puasa, 2004, 2024);
    (singapore_vesak_day, 2004, 2024) ].
Theorem feast_every_year : forall t y0 y1 y, In (t, y0, y1) yearly -> y0 <= y <= y1 ->
  exists m d, valid (Date y m d) /\ forall wd yd em, t y m d wd yd em = true.
Proof.
  intros t y0 y1 y H Y.
  assert (A : exists e, In e (all_dates y 1) /\ validb e = true /\ t (year e) (month e) (day e) 0 0 0 = true).
  { assert (A : forallb (fun r => forallb (fun y => existsb (fun e => validb e && fst (fst r) (year e) (month e) (day e) 0 0 0) (all_dates y 1))
                 (zseq (snd (fst r)) (Z.to_nat (snd r - snd (fst r) + 1)))) yearly = true) by (vm_compute; reflexivity).
    rewrite forallb_forall in A. specialize (A _ H). cbn [fst snd] in A. rewrite forallb_forall in A.
    specialize (A y (In_zseq y0 (Z.to_nat (y1 - y0 + 1)) y ltac:(lia))). apply existsb_exists in A. destruct A as (e & I & B). apply andb_true_iff in B. exists e. tauto. }
  destruct A as (e & I & B & C). apply in_flat_map in I. destruct I as (y' & Iy & I). cbn in Iy. destruct Iy as [Iy|[]].
  apply in_flat_map in I. destruct I as (m & _ & I). apply in_map_iff in I. destruct I as (k & <- & _). cbn [year month day] in C.
  assert (Ey : y' = y) by (change (Z.of_nat 0) with 0 in Iy; rewrite Z.add_0_r in Iy; symmetry; exact Iy). rewrite Ey in *. exists m, k. split; [apply validb_valid; exact B|]. intros wd yd em. revert C. clear - H.
  unfold yearly in H. cbn [In] in H. repeat (destruct H as [H|H]; [injection H as <- _ _; intros C; exact C|]). destruct H.
Qed.
Print Assumptions feast_every_year.

(** ** The phase of the moon
    Hours between the mean new moon and noon. The true new moon is within 14 hours of the
    mean one. Chinese months begin on the day of the new moon: day [k] is noon at
    [24 (k - 1)] hours, 26 hours either way, a day more where a holiday on a Sunday is
    moved. Islamic months begin when the crescent is seen: day [k] is between
    [24 (k - 1) + 4] and [24 (k - 1) + 72] hours. Hindu and Buddhist feasts lie on a
    thirtieth [k] of the lunation, around [(2 k - 1) / 60] of it, 36 hours either way
    (Singapore's Deepavali may be the day before). *)
Definition moon_windows : list (table * Z * Z) :=
  [ (hong_kong_lunar_new_year, -50, 98);
    (singapore_chinese_new_year, -50, 98);
    (indonesia_lunar_new_year, -50, 98);
    (hong_kong_buddhas_birthday, 142, 218);
    (hong_kong_tuen_ng_festival, 70, 146);
    (hong_kong_mid_autumn_festival, 310, 386);
    (indonesia_hindu_new_year, -26, 50);
    (india_eid_ul_fitar, 4, 72);
    (singapore_hari_raya_puasa, 4, 72);
    (indonesia_muharram, 4, 72);
    (india_bakri_id, 220, 288);
    (singapore_hari_raya_haji, 220, 288);
    (indonesia_eid_ul_adha, 220, 288);
    (india_muharram, 220, 288);
    (indonesia_birth_of_prophet_muhammad, 268, 336);
    (indonesia_ascension_day_of_prophet_muhammad, 628, 696);
    (indonesia_eid_ul_fitar, -72, 160);
    (india_mahashivratri, 637, 709);
    (india_diwali, 661, 733);
    (singapore_deepavali, 649, 721);
    (india_holi, 331, 403);
    (india_rama_navami, 165, 237);
    (india_dussehra, 189, 261);
    (india_mahavir_jayanti, 271, 343);
    (india_gurunanak_jayanti, 307, 379);
    (indonesia_vesak_day, 307, 379) ].
Theorem feast_moon : forall t lo hi d, In (t, lo, hi) moon_windows -> on t d -> moon_hours lo hi d.
Proof.
  intros t lo hi d H O. apply moon_hoursb_ok.
  assert (A : forall t y0 n, In (t, y0, n) feast_tables -> forallb (moon_hoursb lo hi) (entries t y0 n) = true -> on t d -> moon_hoursb lo hi d = true)
    by (intros t' y0 n I F; apply (by_entries t' y0 n); [apply feast_spans; exact I|exact F]).
  revert O A. unfold moon_windows in H. cbn [In] in H.
  repeat (destruct H as [H|H]; [injection H as <- <- <-; intros O A; refine (A _ _ _ _ _ O); [unfold feast_tables; cbn [In]; tauto|vm_compute; reflexivity]|]). destruct H.
Qed.
Print Assumptions feast_moon.
Example feast_moon_case : on india_diwali (Date 2024 10 31) /\ on indonesia_muharram (Date 2023 7 19) /\
  moon_hoursb 661 733 (Date 2024 10 31) = true /\ moon_hoursb 661 733 (Date 2024 11 3) = false.
Proof. repeat split; vm_compute; reflexivity. Qed.

(** ** Days between feasts of the same or of different countries
    Islamic months have 29 or 30 days: from the feast of the fast (1st of the tenth
    month) to the feast of sacrifice (10th of the twelfth) 67 to 69 days, and so on.
    The last component lists the years left out. *)
Definition feast_gaps : list (table * table * Z * Z * list Z) :=
  [ (india_eid_ul_fitar, singapore_hari_raya_puasa, -2, 1, []);
    (india_eid_ul_fitar, indonesia_eid_ul_fitar, -4, 4, []);
    (india_bakri_id, singapore_hari_raya_haji, -1, 1, []);
    (india_bakri_id, indonesia_eid_ul_adha, -1, 1, []);
    (india_eid_ul_fitar, india_bakri_id, 67, 69, []);
    (singapore_hari_raya_puasa, singapore_hari_raya_haji, 67, 70, []);
    (india_bakri_id, india_muharram, 29, 30, []);
    (indonesia_muharram, india_muharram, 9, 10, []);
    (indonesia_muharram, indonesia_birth_of_prophet_muhammad, 69, 71, []);
    (indonesia_ascension_day_of_prophet_muhammad, india_eid_ul_fitar, 61, 64, []);
    (india_diwali, singapore_deepavali, -1, 1, [2009]);
    (singapore_vesak_day, indonesia_vesak_day, -1, 2, []);
    (hong_kong_buddhas_birthday, singapore_vesak_day, 7, 8, [2012; 2020]);
    (singapore_chinese_new_year, indonesia_lunar_new_year, -3, 1, [2014]);
    (hong_kong_lunar_new_year, indonesia_lunar_new_year, -3, 2, [2014]);
    (india_dussehra, india_diwali, 18, 21, []);
    (india_mahashivratri, india_holi, 16, 18, []);
    (india_rama_navami, india_mahavir_jayanti, 4, 5, [2010]);
    (india_holi, india_rama_navami, 22, 24, [2029]);
    (india_diwali, india_gurunanak_jayanti, 14, 16, []);
    (hong_kong_mid_autumn_festival, hong_kong_chung_yeung_festival, 22, 25, [2004; 2005; 2006; 2007; 2008]);
    (hong_kong_buddhas_birthday, hong_kong_tuen_ng_festival, 26, 28, [2009]) ].
Definition gapb (lo hi : Z) (ex : list Z) (d e : date) : bool :=
  existsb (Z.eqb (year e)) ex || (daynum e - daynum d <? -120) || (120 <? daynum e - daynum d) || ((lo <=? daynum e - daynum d) && (daynum e - daynum d <=? hi)).
Definition pairsb (P : date -> date -> bool) (la lb : list date) : bool := forallb (fun d => forallb (P d) lb) la.
Theorem feast_intervals : forall a b lo hi ex d e, In (a, b, lo, hi, ex) feast_gaps -> on a d -> on b e -> ~ In (year e) ex ->
  -120 <= daynum e - daynum d <= 120 -> lo <= daynum e - daynum d <= hi.
Proof.
  intros a b lo hi ex d e H Oa Ob X N.
  assert (G : gapb lo hi ex d e = true).
  { assert (A : forall a y0 n b y1 k, In (a, y0, n) feast_tables -> In (b, y1, k) feast_tables ->
       pairsb (gapb lo hi ex) (entries a y0 n) (entries b y1 k) = true -> on a d -> on b e -> gapb lo hi ex d e = true).
    { intros a' y0 n b' y1 k I J F Od Oe.
      pose proof (by_entries a' y0 n (fun d => forallb (gapb lo hi ex d) (entries b' y1 k)) (feast_spans _ _ _ I) F d Od) as F1. cbv beta in F1.
      exact (by_entries b' y1 k (gapb lo hi ex d) (feast_spans _ _ _ J) F1 e Oe). }
    clear X N. revert Oa Ob A. unfold feast_gaps in H. cbn [In] in H.
    repeat (destruct H as [H|H]; [injection H as <- <- <- <- <-; intros Oa Ob A;
      refine (A _ _ _ _ _ _ _ _ _ Oa Ob); [unfold feast_tables; cbn [In]; tauto|unfold feast_tables; cbn [In]; tauto|vm_compute; reflexivity]|]). destruct H. }
  unfold gapb in G. apply orb_true_iff in G. destruct G as [G|G]; [apply orb_true_iff in G; destruct G as [G|G]; [apply orb_true_iff in G; destruct G as [G|G]|]|].
  - exfalso. apply X. apply existsb_exists in G. destruct G as (z & I & E). apply Z.eqb_eq in E. rewrite E. exact I.
  - apply Z.ltb_lt in G. lia.
  - apply Z.ltb_lt in G. lia.
  - apply andb_true_iff in G. destruct G as [G1 G2]. apply Z.leb_le in G1. apply Z.leb_le in G2. lia.
Qed.
Print Assumptions feast_intervals.
Example feast_intervals_case : on india_eid_ul_fitar (Date 2024 4 11) /\ on india_bakri_id (Date 2024 6 17) /\ daynum (Date 2024 6 17) - daynum (Date 2024 4 11) = 67.
Proof. repeat split; vm_compute; reflexivity. Qed.

(** ** The years left out contradict the other tables *)
(** Hong Kong's Chung Yeung, the 9th day of a lunar month, is entered at a full moon in
    2004 to 2008: the month after the mid-autumn date, in 2006 the very same day *)
Theorem chung_yeung_refuted : forall d, on hong_kong_chung_yeung_festival d ->
  (year d <= 2008 -> moon_hours 334 390 d /\ ~ moon_hours 166 242 d) /\ (2008 < year d -> moon_hours 166 242 d).
Proof.
  intros d O.
  pose proof (by_entries _ _ _ (fun d => if year d <=? 2008 then moon_hoursb 334 390 d && negb (moon_hoursb 166 242 d) else moon_hoursb 166 242 d)
                hong_kong_chung_yeung_festival_spans ltac:(vm_compute; reflexivity) d O) as H. cbv beta in H.
  destruct (Z.leb_spec (year d) 2008) as [L|L].
  - split; [|lia]. intros _. apply andb_true_iff in H. destruct H as [A B]. split; [apply moon_hoursb_ok; exact A|].
    intros (k & K). apply negb_true_iff in B. unfold moon_hoursb in B.
    assert (E : k = (since_new_moon d - 166 * hour_ms) / lunation).
    { apply (Z.div_unique_pos _ _ k (since_new_moon d - 166 * hour_ms - k * lunation)); [unfold hour_ms, lunation in *; lia|lia]. }
    rewrite <- E in B. apply andb_false_iff in B. destruct B as [B|B]; apply Z.leb_gt in B; lia.
  - split; [lia|]. intros _. apply moon_hoursb_ok. exact H.
Qed.
Print Assumptions chung_yeung_refuted.
Theorem chung_yeung_2006_refuted : on hong_kong_chung_yeung_festival (Date 2006 10 7) /\ on hong_kong_mid_autumn_festival (Date 2006 10 7).
Proof. split; vm_compute; reflexivity. Qed.
Print Assumptions chung_yeung_2006_refuted.
(** one lunation apart from the neighbouring feast, or from the same feast elsewhere *)
Theorem feast_month_refuted : forall d e a b y k,
  In (a, b, y, k) [ (india_rama_navami, india_mahavir_jayanti, 2010, 35); (india_diwali, singapore_deepavali, 2009, 29);
                    (hong_kong_buddhas_birthday, hong_kong_tuen_ng_festival, 2009, 57); (hong_kong_buddhas_birthday, singapore_vesak_day, 2012, -23);
                    (hong_kong_buddhas_birthday, singapore_vesak_day, 2020, -23) ] ->
  on a d -> on b e -> year d = y -> year e = y -> k <= daynum e - daynum d <= k + 1.
Proof.
  intros d e a b y k H Oa Ob Yd Ye.
  assert (A : forall a y0 n b y1 m, In (a, y0, n) feast_tables -> In (b, y1, m) feast_tables ->
       pairsb (fun d e => negb (year d =? y) || negb (year e =? y) || ((k <=? daynum e - daynum d) && (daynum e - daynum d <=? k + 1))) (entries a y0 n) (entries b y1 m) = true ->
       on a d -> on b e -> k <= daynum e - daynum d <= k + 1).
  { intros a' y0 n b' y1 m I J F Od Oe.
    pose proof (by_entries a' y0 n _ (feast_spans _ _ _ I) F d Od) as F1. cbv beta in F1.
    pose proof (by_entries b' y1 m _ (feast_spans _ _ _ J) F1 e Oe) as F2. cbv beta in F2.
    rewrite Yd, Ye, Z.eqb_refl in F2. cbn [negb orb] in F2. apply andb_true_iff in F2. destruct F2 as [G1 G2]. apply Z.leb_le in G1. apply Z.leb_le in G2. lia. }
  clear Yd Ye. revert Oa Ob A. cbn [In] in H.
  repeat (destruct H as [H|H]; [injection H as <- <- <- <-; intros Oa Ob A;
      refine (A _ _ _ _ _ _ _ _ _ Oa Ob); [unfold feast_tables; cbn [In]; tauto|unfold feast_tables; cbn [In]; tauto|vm_compute; reflexivity]|]). destruct H.
Qed.
Print Assumptions feast_month_refuted.
Example feast_month_case : on india_rama_navami (Date 2010 3 24) /\ on india_mahavir_jayanti (Date 2010 4 28) /\ on singapore_deepavali (Date 2009 11 15) /\ on india_diwali (Date 2009 10 17).
Proof. repeat split; vm_compute; reflexivity. Qed.
