(** C74-C76: China, Israel, the markets, and the claims about calendars that fail. *)
From Coq Require Import ZArith List Bool Lia.
From Verif Require Import Res DateModel CalModel CalProofs CountryModel CountrySpec CountryProps.
Import ListNotations.
Open Scope Z_scope.

(** ** China: holidays are listed year by year up to 2023 *)
Ltac years d :=
  repeat match goal with
  | |- context [year d =? ?c] => replace (year d =? c) with false by (symmetry; apply Z.eqb_neq; lia)
  | |- context [year d <=? ?c] => first [replace (year d <=? c) with false by (symmetry; apply Z.leb_gt; lia) | replace (year d <=? c) with true by (symmetry; apply Z.leb_le; lia)]
  end; cbn [andb orb]; rewrite ?orb_false_r.
Theorem china_after_table : forall d, valid d -> 2024 <= year d <= 2199 ->
  (country china_rule d = Some true <-> month d = 1 /\ day d = 1).
Proof.
  intros d V Y. destruct (easter_table (year d) ltac:(lia)) as (E & _). unfold country. rewrite E. unfold china_rule. years d. split.
  - intros H. injection H as H. breakH; lia.
  - intros [-> ->]. reflexivity.
Qed.
Print Assumptions china_after_table.
Definition china_early_rules : list hrule :=
  Fixed 1 1 :: Fixed 4 4 :: Fixed 6 9 :: Fixed 9 15 :: map (Fixed 5) [1; 2; 3; 4; 5; 6; 7] ++ map (Fixed 10) [1; 2; 3; 4; 5; 6; 7].
Theorem china_before_table : forall d, valid d -> 1901 <= year d <= 2003 ->
  (country china_rule d = Some true <-> holiday_by china_early_rules d).
Proof.
  intros d V Y. apply country_flat; [assumption|lia|reflexivity|]. intros em. unfold rule_at, china_rule, china_early_rules. years d. cbn [map app].
  destruct V as (_ & VM & VD). pose proof (month_length_range (year d) (month d)) as ML. cbn [flats flat]. split.
  - intros H. breakH; try (exfalso; lia); first [solve [pick] | solve [range_cases (day d) 1 7%nat; pick]].
  - intros H. breakH; pick.
Qed.
Print Assumptions china_before_table.
(** National Day and Labour Day are never business days while the table lasts *)
Theorem china_closed : forall heb y m, 1901 <= y <= 2023 -> m = 10 \/ m = 5 ->
  is_business_day (market_calendar heb China) (Date y m 1) = Ret false \/ (m = 5 /\ In y [2010; 2011; 2021; 2022]).
Proof.
  intros heb y m Y M. destruct (Z_le_gt_dec y 2007) as [L|G].
  - left. unfold is_business_day. destruct (is_weekend _ _); [reflexivity|]. unfold is_holiday. cbn [is_extra market_calendar calendar_new extra existsb market_holiday holiday_of].
    assert (T : country china_rule (Date y m 1) = Some true).
    { destruct (easter_table y ltac:(lia)) as (E & _). unfold country. cbn [year month day]. rewrite E. f_equal. unfold china_rule. destruct M as [-> | ->]; pick. }
    rewrite T. reflexivity.
  - range_cases y 2008 16%nat; subst y; destruct M as [-> | ->]; first [left; vm_compute; reflexivity | right; simpl; lia].
Qed.
Print Assumptions china_closed.
Example china_case : country china_rule (Date 2023 1 25) = Some true /\ country china_rule (Date 2024 2 12) = Some false
  /\ is_business_day (market_calendar (fun _ => (1, 1, false)) China) (Date 2024 2 12) = Ret true.
Proof. repeat split. Qed.

(** ** New Zealand: Matariki is a Friday, once in each year 2022-2052 *)
Theorem new_zealand_matariki :
  (forall y m dd, In (Once y m dd) new_zealand_rules -> valid (Date y m dd) /\ weekday (Date y m dd) = 4 /\ 2022 <= y <= 2052) /\
  (forall y, 2022 <= y <= 2052 -> exists m dd, In (Once y m dd) new_zealand_rules /\ (m = 6 \/ m = 7)).
Proof.
  split.
  - intros y m dd H. assert (C : forallb (fun r => match r with Once y m dd => validb (Date y m dd) && (weekday (Date y m dd) =? 4) && (2022 <=? y) && (y <=? 2052) | _ => true end) new_zealand_rules = true) by (vm_compute; reflexivity).
    rewrite forallb_forall in C. specialize (C _ H). simpl in C. rewrite !andb_true_iff, !Z.leb_le, Z.eqb_eq, validb_valid in C. tauto.
  - intros y Y. range_cases y 2022 31%nat; subst y;
      (lazymatch goal with |- exists _ _, In (Once ?y _ _) _ /\ _ => idtac end);
      match goal with |- context [Once ?y _ _] => 
        let t := eval compute in (find (fun r => match r with Once y' _ _ => y' =? y | _ => false end) new_zealand_rules) in
        match t with Some (Once _ ?m ?dd) => exists m, dd end end; (split; [unfold new_zealand_rules; cbn [In]; repeat (first [left; reflexivity | right])|lia]).
Qed.
Print Assumptions new_zealand_matariki.

(** ** Israel *)
(** in a common year the months are Tishrei 1, ..., Adar 6, Nisan 7, Iyar 8, Sivan 9, Av 11, Elul 12 *)
Theorem israel_common_year : forall heb d m k, heb d = (m, k, false) ->
  (israel_rule heb d = true <->
   (m = 12 /\ k = 29) \/ (m = 1 /\ (k = 1 \/ k = 2 \/ k = 9 \/ k = 10 \/ k = 14 \/ k = 15 \/ k = 22 \/ k = 23)) \/
   (m = 6 /\ k = 14) \/ (m = 7 /\ (k = 14 \/ k = 15 \/ k = 20 \/ k = 21)) \/ (m = 9 /\ (k = 5 \/ k = 6)) \/
   (m = 8 /\ ((weekday d = 3 /\ (k = 3 \/ k = 4)) \/ (weekday d = 2 /\ (k = 2 \/ k = 3 \/ k = 5)) \/ (weekday d = 0 /\ k = 5) \/ (weekday d = 1 /\ (k = 6 \/ k = 4)))) \/
   (m = 11 /\ (k = 9 \/ (k = 10 /\ weekday d = 6)))).
Proof.
  intros heb d m k H. unfold israel_rule. rewrite H. cbn [andb existsb jewish_holidays fst snd]. split.
  - intros Q. rewrite orb_false_r in Q. breakH; first [solve [pick] | range_cases k 2 3%nat; pick].
  - intros Q. rewrite orb_false_r. breakH; pick.
Qed.
Print Assumptions israel_common_year.
(** in a leap year the months from Nisan on count one higher and are treated alike *)
Theorem israel_leap_year : forall heb1 heb2 d m k, 7 <= m -> heb1 d = (m + 1, k, true) -> heb2 d = (m, k, false) ->
  israel_rule heb1 d = israel_rule heb2 d.
Proof.
  intros h1 h2 d m k M H1 H2. unfold israel_rule. rewrite H1, H2. assert (L : (7 <? m + 1) = true) by (apply Z.ltb_lt; lia). rewrite L. cbn [andb]. replace (m + 1 - 1) with m by lia. reflexivity.
Qed.
Print Assumptions israel_leap_year.
(** The claim that in a leap year the seventh month, Adar II, has the one holiday
    Purim, on its 14th, fails: the days of Passover are applied to it. *)
Theorem israel_adar_refuted : exists heb d, heb d = (7, 20, true) /\ israel_rule heb d = true /\ is_business_day (market_calendar heb Israel) d = Ret false
  /\ weekday d = 2.
Proof. exists (fun _ => (7, 20, true)), (Date 2024 3 27). repeat split. Qed.
Print Assumptions israel_adar_refuted.
Theorem israel_adar_purim_refuted : forall heb d k, heb d = (6, 14, k) -> israel_rule heb d = true.
Proof. intros heb d k H. unfold israel_rule. rewrite H. destruct k; reflexivity. Qed.
Print Assumptions israel_adar_purim_refuted.
Example israel_case : israel_rule (fun _ => (1, 10, true)) (Date 2024 10 12) = true /\ israel_rule (fun _ => (3, 5, true)) (Date 2024 10 13) = false.
Proof. split; reflexivity. Qed.

(** ** The markets *)
Definition market_rules (mk : market) : option (list hrule) :=
  match mk with
  | Argentina => Some argentina_rules | Australia => Some australia_rules | Austria => Some austria_rules | Botswana => Some botswana_rules
  | Brazil => Some brazil_rules | Canada => Some canada_rules | Chile => Some chile_rules | CzechRepublic => Some czech_republic_rules
  | Denmark => Some denmark_rules | Finland => Some finland_rules | France => Some france_rules | Germany => Some germany_rules
  | Hungary => Some hungary_rules | Iceland => Some iceland_rules | Italy => Some italy_rules | Mexico => Some mexico_rules
  | Netherlands => Some netherlands_rules | NewZealand => Some new_zealand_rules | UnitedKingdom => Some united_kingdom_rules
  | UnitedStates => Some united_states_rules | Switzerland => Some switzerland_rules
  | NoMarket | Weekends => Some []
  | China | HongKong | India | Indonesia | Israel | Singapore => None
  end.
Lemma business_of heb mk d o (P : Prop) : (match mk with Israel => False | _ => True end) -> holiday_of heb mk d = Some o -> (o = true <-> P) ->
  exists b, is_business_day (market_calendar heb mk) d = Ret b /\ (b = true <-> weekday d <> 5 /\ weekday d <> 6 /\ ~ P).
Proof.
  intros NI HO HP. unfold is_business_day. assert (W : is_weekend (market_calendar heb mk) d = (weekday d =? 5) || (weekday d =? 6)) by (destruct mk; try reflexivity; destruct NI). rewrite W.
  destruct ((weekday d =? 5) || (weekday d =? 6)) eqn:WE.
  - exists false. split; [reflexivity|]. breakH; split; intros; [discriminate|lia|discriminate|lia].
  - unfold is_holiday. cbn [is_extra market_calendar calendar_new extra existsb market_holiday]. rewrite HO. cbn [unwrap bind]. exists (negb o). split; [reflexivity|].
    apply orb_false_iff in WE. destruct WE as [W5 W6]. apply Z.eqb_neq in W5, W6. destruct o; simpl; intuition congruence.
Qed.
Lemma country_total rule d : 1901 <= year d <= 2199 -> exists o, country rule d = Some o.
Proof. intros Y. destruct (easter_table (year d) Y) as (E & _). unfold country. rewrite E. eauto. Qed.
(** A date in 1901-2199 is a business day of a market exactly when it is neither on
    the weekend nor one of the market's holidays. *)
Theorem market_business_day : forall heb mk rs d, market_rules mk = Some rs -> valid d -> 1901 <= year d <= 2199 ->
  exists b, is_business_day (market_calendar heb mk) d = Ret b /\ (b = true <-> weekday d <> 5 /\ weekday d <> 6 /\ ~ holiday_by rs d).
Proof.
  intros heb mk rs d R V Y.
  assert (N : forall X, X = Some false -> holiday_of heb mk d = X -> rs = [] -> exists b, is_business_day (market_calendar heb mk) d = Ret b /\ (b = true <-> weekday d <> 5 /\ weekday d <> 6 /\ ~ holiday_by rs d)).
  { intros X -> H ->. apply (business_of heb mk d false); [destruct mk; try exact I; discriminate|exact H|]. split; [discriminate|intros (? & [] & _)]. }
  assert (G : forall rule, holiday_of heb mk d = country rule d -> (country rule d = Some true <-> holiday_by rs d) -> exists b, is_business_day (market_calendar heb mk) d = Ret b /\ (b = true <-> weekday d <> 5 /\ weekday d <> 6 /\ ~ holiday_by rs d)).
  { intros rule H1 H2. destruct (country_total rule d Y) as [o O]. apply (business_of heb mk d o); [destruct mk; try exact I; discriminate|congruence|]. rewrite <- H2, O. split; congruence. }
  destruct mk; try discriminate R; injection R as <-;
    first [apply (N _ eq_refl eq_refl eq_refl)
      | apply (G _ eq_refl (argentina_holidays d V Y)) | apply (G _ eq_refl (australia_holidays d V Y)) | apply (G _ eq_refl (austria_holidays d V Y))
      | apply (G _ eq_refl (botswana_holidays d V Y)) | apply (G _ eq_refl (brazil_holidays d V Y)) | apply (G _ eq_refl (canada_holidays d V Y))
      | apply (G _ eq_refl (chile_holidays d V Y)) | apply (G _ eq_refl (czech_republic_holidays d V Y)) | apply (G _ eq_refl (denmark_holidays d V Y))
      | apply (G _ eq_refl (finland_holidays d V Y)) | apply (G _ eq_refl (france_holidays d V Y)) | apply (G _ eq_refl (germany_holidays d V Y))
      | apply (G _ eq_refl (hungary_holidays d V Y)) | apply (G _ eq_refl (iceland_holidays d V Y)) | apply (G _ eq_refl (italy_holidays d V Y))
      | apply (G _ eq_refl (mexico_holidays d V Y)) | apply (G _ eq_refl (netherlands_holidays d V Y)) | apply (G _ eq_refl (new_zealand_holidays d V Y))
      | apply (G _ eq_refl (united_kingdom_holidays d V Y)) | apply (G _ eq_refl (united_states_holidays d V Y)) | apply (G _ eq_refl (switzerland_holidays d V Y))].
Qed.
Print Assumptions market_business_day.
Example market_business_day_case : is_business_day (market_calendar (fun _ => (1, 1, false)) UnitedStates) (Date 2021 12 31) = Ret false
  /\ is_business_day (market_calendar (fun _ => (1, 1, false)) UnitedStates) (Date 2021 12 30) = Ret true.
Proof. split; reflexivity. Qed.
(** Outside 1901-2199 asking whether a weekday is a business day panics in every
    market with holidays of its own. *)
Theorem market_panics : forall heb mk d, year d < 1901 \/ 2199 < year d -> weekday d < 4 -> mk <> NoMarket -> mk <> Weekends ->
  is_business_day (market_calendar heb mk) d = Panic.
Proof.
  intros heb mk d Y W N1 N2. unfold is_business_day. assert (WE : is_weekend (market_calendar heb mk) d = false).
  { unfold is_weekend. destruct (israel _); apply orb_false_iff; rewrite !Z.eqb_neq; lia. }
  rewrite WE. unfold is_holiday. cbn [is_extra market_calendar calendar_new extra existsb market_holiday].
  assert (HN : holiday_of heb mk d = None).
  { destruct mk; try congruence; unfold holiday_of, country, israel_holiday; rewrite easter_table_panics by exact Y; reflexivity. }
  rewrite HN. reflexivity.
Qed.
Print Assumptions market_panics.
Example market_panics_case : is_business_day (market_calendar (fun _ => (1, 1, false)) Germany) (Date 1900 7 4) = Panic /\ weekday (Date 1900 7 4) = 2.
Proof. split; reflexivity. Qed.

(** ** Claims that fail *)
(** New Year's Day is a public holiday in Argentina; the code never says so *)
Theorem argentina_new_year_refuted : forall y, 1901 <= y <= 2199 -> country argentina_rule (Date y 1 1) = Some false.
Proof.
  intros y Y. destruct (easter_table y Y) as (E & _ & _ & _ & B & _). unfold country. cbn [year month day]. rewrite E. f_equal. change (ordinal (Date y 1 1)) with 1.
  set (o := ordinal (easter_sunday y)) in *. clearbody o. unfold argentina_rule. cbn -[Z.eqb Z.add Z.sub weekday].
  destruct (Z.eqb_spec 1 (o + 1 - 4)); [exfalso; lia|]. destruct (Z.eqb_spec 1 (o + 1 - 3)); [exfalso; lia|]. destruct (weekday (Date y 1 1) =? 0), (weekday (Date y 1 1) =? 4); reflexivity.
Qed.
Print Assumptions argentina_new_year_refuted.
(** Ascension Day is a public holiday in France; the code has the fixed dates 10 and
    21 May instead of the movable feasts *)
Theorem france_ascension_refuted : exists d, valid d /\ 1901 <= year d <= 2199 /\ occ (Easter 39) d /\ weekday d = 3 /\ country france_rule d = Some false.
Proof. exists (Date 2024 5 9). split; [repeat split; cbn; lia|]. split; [cbn; lia|]. repeat split. Qed.
Print Assumptions france_ascension_refuted.
Theorem france_fixed_refuted : exists d, valid d /\ 1901 <= year d <= 2199 /\ month d = 5 /\ day d = 21 /\ ~ occ (Easter 50) d /\ country france_rule d = Some true.
Proof. exists (Date 2024 5 21). split; [repeat split; cbn; lia|]. split; [cbn; lia|]. split; [reflexivity|]. split; [reflexivity|]. split; [vm_compute; discriminate|reflexivity]. Qed.
Print Assumptions france_fixed_refuted.
(** In Singapore the 25th of every month is a holiday *)
Theorem singapore_25th_refuted : forall d, valid d -> 1901 <= year d <= 2199 -> day d = 25 -> country singapore_rule d = Some true.
Proof.
  intros d V Y D. apply (singapore_holidays d V Y). left. exists (Fixed (month d) 25). split; [|simpl; auto]. destruct V as (_ & M & _).
  unfold singapore_rules. range_cases (month d) 1 12%nat; match goal with Q : month d = _ |- _ => rewrite Q end; cbn [In]; repeat (first [left; reflexivity | right]).
Qed.
Print Assumptions singapore_25th_refuted.
(** The second day of the 2014 lunar new year holiday is entered as 2 January *)
Theorem hong_kong_2014_refuted :
  country hong_kong_rule (Date 2014 1 2) = Some true /\ country hong_kong_rule (Date 2014 2 3) = Some false /\ weekday (Date 2014 2 3) = 0.
Proof. repeat split. Qed.
Print Assumptions hong_kong_2014_refuted.
(** after the tables end only the solar holidays remain *)
Theorem tables_end : forall d, valid d -> 1901 <= year d <= 2199 -> 2029 < year d ->
  (country hong_kong_rule d = Some true <-> holiday_by hong_kong_rules d) /\ (country singapore_rule d = Some true <-> holiday_by singapore_rules d) /\
  (country india_rule d = Some true <-> holiday_by india_rules d) /\ (country indonesia_rule d = Some true <-> holiday_by indonesia_rules d).
Proof.
  intros d V Y L. pose proof (hong_kong_holidays d V Y). pose proof (singapore_holidays d V Y). pose proof (india_holidays d V Y). pose proof (indonesia_holidays d V Y).
  pose proof (hong_kong_coverage d). pose proof (singapore_coverage d). pose proof (india_coverage d). pose proof (indonesia_coverage d).
  assert (A : hong_kong_tables d = true -> False) by (intros Q; specialize (H3 Q); lia). assert (B : singapore_tables d = true -> False) by (intros Q; specialize (H4 Q); lia).
  assert (C : india_tables d = true -> False) by (intros Q; specialize (H5 Q); lia). assert (D : indonesia_tables d = true -> False) by (intros Q; specialize (H6 Q); lia).
  tauto.
Qed.
Print Assumptions tables_end.
Example tables_end_case : country singapore_rule (Date 2037 8 10) = Some true /\ country india_rule (Date 2030 10 25) = Some false.
Proof. split; reflexivity. Qed.
