(** C74-C76: the national calendars. For each country, the list of its holidays as
    rules of [CountrySpec] and the theorem that the code accepts exactly those
    dates. (The lists are generated by tools/gen_country_props.py.) *)
From Coq Require Import ZArith List Bool Lia.
From Verif Require Import Res DateModel CalModel CalProofs CountryModel CountrySpec.
Import ListNotations.
Open Scope Z_scope.

(** ** Proof support *)
Lemma country_flat_or rule rs (T : date -> bool) d : valid d -> 1901 <= year d <= 2199 -> forallb okr rs = true ->
  (forall em, rule (year d) (month d) (day d) (weekday d) (ordinal d) em = true <-> flats em rs d \/ T d = true) ->
  (country rule d = Some true <-> holiday_by rs d \/ T d = true).
Proof.
  intros V Y OK H. destruct (easter_table (year d) Y) as (E & _). rewrite (holiday_flat rs d _ OK V Y E), flats_ex, <- H. unfold country. rewrite E.
  split; [intros Q; injection Q; auto|intros ->; reflexivity].
Qed.
Definition rule_at (rule : Z -> Z -> Z -> Z -> Z -> Z -> bool) (d : date) (em : Z) : bool :=
  rule (year d) (month d) (day d) (weekday d) (ordinal d) em.
Lemma country_flat rule rs d : valid d -> 1901 <= year d <= 2199 -> forallb okr rs = true ->
  (forall em, rule_at rule d em = true <-> flats em rs d) -> (country rule d = Some true <-> holiday_by rs d).
Proof.
  intros V Y OK H. rewrite (country_flat_or rule rs (fun _ => false) d V Y OK); [intuition discriminate|].
  intros em. rewrite <- H. unfold rule_at. intuition discriminate.
Qed.
Lemma rem_mod a n : 0 < n -> (Z.rem a n =? 0) = (a mod n =? 0).
Proof.
  intros N. apply eq_iff_eq_true. rewrite !Z.eqb_eq. rewrite Z.rem_divide, Z.mod_divide by lia. reflexivity.
Qed.
Ltac leaf := lazymatch goal with |- _ mod _ = _ => first [assumption | Z.div_mod_to_equations; lia] | |- _ => lia end.
(** a disjunct that linear arithmetic can prove *)
Ltac pick :=
  lazymatch goal with
  | |- _ \/ _ => first [left; pick | right; pick]
  | |- _ /\ _ => split; pick
  | |- _ || _ = true => apply orb_true_iff; first [left; pick | right; pick]
  | |- _ && _ = true => apply andb_true_iff; split; pick
  | |- negb _ = true => apply negb_true_iff; pick
  | |- (_ =? _) = true => apply Z.eqb_eq; leaf
  | |- (_ =? _) = false => apply Z.eqb_neq; leaf
  | |- (_ <=? _) = true => apply Z.leb_le; lia
  | |- (_ <? _) = true => apply Z.ltb_lt; lia
  | |- ?b = true => first [assumption | reflexivity]
  | |- False => lia
  | |- _ => leaf
  end.
Ltac breakH :=
  repeat match goal with
  | H : _ \/ _ |- _ => destruct H
  | H : _ /\ _ |- _ => destruct H
  | H : False |- _ => destruct H
  | H : _ || _ = true |- _ => apply orb_true_iff in H; destruct H
  | H : _ && _ = true |- _ => apply andb_true_iff in H; destruct H
  | H : _ || _ = false |- _ => apply orb_false_iff in H; destruct H
  | H : negb _ = true |- _ => apply negb_true_iff in H
  | H : (_ =? _) = true |- _ => apply Z.eqb_eq in H
  | H : (_ =? _) = false |- _ => apply Z.eqb_neq in H
  | H : (_ <=? _) = true |- _ => apply Z.leb_le in H
  | H : (_ <=? _) = false |- _ => apply Z.leb_gt in H
  | H : (_ <? _) = true |- _ => apply Z.ltb_lt in H
  end.
Ltac ifs := repeat match goal with |- context [if ?b then _ else _] => let E := fresh "E" in destruct b eqn:E end.
Ltac range_cases x a n :=
  lazymatch n with
  | O => exfalso; lia
  | S ?n' => let D := fresh "D" in assert (D : x = a \/ a + 1 <= x) by lia; destruct D as [D|D];
             [|let b := eval compute in (a + 1) in change (a + 1) with b in D; range_cases x b n']
  end.
Ltac day_cases d := range_cases (day d) 1 31%nat.
Ltac wd_cases d :=
  let D := fresh "D" in
  assert (D : weekday d = 0 \/ weekday d = 1 \/ weekday d = 2 \/ weekday d = 3 \/ weekday d = 4 \/ weekday d = 5 \/ weekday d = 6) by lia;
  destruct D as [D|[D|[D|[D|[D|[D|D]]]]]].
Ltac prove_country d V Y :=
  let WR := fresh "WR" in let ML := fresh "ML" in
  pose proof (weekday_range d) as WR; destruct V as (_ & ? & ?); pose proof (month_length_range (year d) (month d)) as ML;
  cbn [flats flat];
  repeat match goal with |- context [target ?m ?k ?n] => let v := eval compute in (target m k n) in change (target m k n) with v end;
  repeat match goal with |- context [map ?f ?l] => let v := eval compute in (map f l) in change (map f l) with v end;
  repeat match goal with |- context [mlen ?m] => let v := eval compute in (mlen m) in change (mlen m) with v end;
  cbn [In]; cbv iota beta;
  rewrite ?rem_mod by lia; ifs; split; let HH := fresh "HH" in intros HH; breakH; try solve [exfalso; lia]; try solve [pick];
  try solve [range_cases (month d) 1 12%nat; pick];
  try solve [day_cases d; try solve [exfalso; lia]; first [pick | wd_cases d; solve [exfalso; lia | pick]]].
Definition argentina_rules : list hrule :=
  [Easter (-3); Easter (-2); Fixed 5 1; Fixed 5 25; NthDay 3 Mon 6; Fixed 7 9; NthDay 3 Mon 8; Moved [Mon] (0) (Fixed
   10 12); Moved [Tue] (-1) (Fixed 10 12); Moved [Wed] (-2) (Fixed 10 12); Moved [Thu] (4) (Fixed 10 12); Moved [Fri]
   (3) (Fixed 10 12); Fixed 12 8; Fixed 12 24; Fixed 12 25; Fixed 12 31; Moved [Sat] (-1) (Fixed 12 31)].
Theorem argentina_holidays : forall d, valid d -> 1901 <= year d <= 2199 ->
  (country argentina_rule d = Some true <-> holiday_by argentina_rules d).
Proof. intros d V Y. apply country_flat; [assumption|assumption|reflexivity|]. intros em. unfold rule_at, argentina_rule, argentina_rules. prove_country d V Y. Qed.
Print Assumptions argentina_holidays.
Example argentina_case : valid (Date 2024 3 28) /\ country argentina_rule (Date 2024 3 28) = Some true /\ country argentina_rule (Date 2024 6 12) = Some false.
Proof. split; [repeat split; cbn; lia|split; vm_compute; reflexivity]. Qed.
Definition australia_rules : list hrule :=
  [Fixed 1 1; Moved [Sat] 2 (Fixed 1 1); Moved [Sun] 1 (Fixed 1 1); Fixed 1 26; Moved [Sat] 2 (Fixed 1 26); Moved
   [Sun] 1 (Fixed 1 26); Easter (-2); Easter (1); Fixed 4 25; NthDay 2 Mon 6; NthDay 1 Mon 8; NthDay 1 Mon 10; Fixed
   12 25; Moved [Sat; Sun] 2 (Fixed 12 25); Fixed 12 26; Moved [Sat; Sun] 2 (Fixed 12 26); Once 2022 9 22].
Theorem australia_holidays : forall d, valid d -> 1901 <= year d <= 2199 ->
  (country australia_rule d = Some true <-> holiday_by australia_rules d).
Proof. intros d V Y. apply country_flat; [assumption|assumption|reflexivity|]. intros em. unfold rule_at, australia_rule, australia_rules. prove_country d V Y. Qed.
Print Assumptions australia_holidays.
Example australia_case : valid (Date 2022 1 3) /\ country australia_rule (Date 2022 1 3) = Some true /\ country australia_rule (Date 2024 6 12) = Some false.
Proof. split; [repeat split; cbn; lia|split; vm_compute; reflexivity]. Qed.
Definition austria_rules : list hrule :=
  [Fixed 1 1; Fixed 1 6; Easter (1); Easter (39); Easter (50); Easter (60); Fixed 5 1; Fixed 8 15; Between 1967 9999
   (Fixed 10 26); Between 1919 1934 (Fixed 11 12); Fixed 11 1; Fixed 12 8; Fixed 12 25; Fixed 12 26].
Theorem austria_holidays : forall d, valid d -> 1901 <= year d <= 2199 ->
  (country austria_rule d = Some true <-> holiday_by austria_rules d).
Proof. intros d V Y. apply country_flat; [assumption|assumption|reflexivity|]. intros em. unfold rule_at, austria_rule, austria_rules. prove_country d V Y. Qed.
Print Assumptions austria_holidays.
Example austria_case : valid (Date 2024 5 30) /\ country austria_rule (Date 2024 5 30) = Some true /\ country austria_rule (Date 2024 6 12) = Some false.
Proof. split; [repeat split; cbn; lia|split; vm_compute; reflexivity]. Qed.
Definition botswana_rules : list hrule :=
  [Fixed 1 1; Moved [Sun] 1 (Fixed 1 1); Moved [Sun] (2) (Fixed 1 1); Easter (-2); Easter (1); Easter (39); Fixed 5 1;
   Moved [Sun] 1 (Fixed 5 1); Fixed 7 1; Moved [Sun] 1 (Fixed 7 1); NthDay 3 Mon 7; Fixed 9 30; Moved [Sun] 1 (Fixed 9
   30); Fixed 10 1; Moved [Sun] 1 (Fixed 10 1); Moved [Sun] (2) (Fixed 10 1); Fixed 12 25; Fixed 12 26; Moved [Sun] 1
   (Fixed 12 26)].
Theorem botswana_holidays : forall d, valid d -> 1901 <= year d <= 2199 ->
  (country botswana_rule d = Some true <-> holiday_by botswana_rules d).
Proof. intros d V Y. apply country_flat; [assumption|assumption|reflexivity|]. intros em. unfold rule_at, botswana_rule, botswana_rules. prove_country d V Y. Qed.
Print Assumptions botswana_holidays.
Example botswana_case : valid (Date 2023 1 3) /\ country botswana_rule (Date 2023 1 3) = Some true /\ country botswana_rule (Date 2024 6 12) = Some false.
Proof. split; [repeat split; cbn; lia|split; vm_compute; reflexivity]. Qed.
Definition brazil_rules : list hrule :=
  [Fixed 1 1; Fixed 4 21; Fixed 5 1; Fixed 9 7; Fixed 10 12; Fixed 11 2; Fixed 11 15; Between 2024 9999 (Fixed 11 20);
   Fixed 12 25; Easter (-48); Easter (-47); Easter (-2); Easter (60)].
Theorem brazil_holidays : forall d, valid d -> 1901 <= year d <= 2199 ->
  (country brazil_rule d = Some true <-> holiday_by brazil_rules d).
Proof. intros d V Y. apply country_flat; [assumption|assumption|reflexivity|]. intros em. unfold rule_at, brazil_rule, brazil_rules. prove_country d V Y. Qed.
Print Assumptions brazil_holidays.
Example brazil_case : valid (Date 2024 2 13) /\ country brazil_rule (Date 2024 2 13) = Some true /\ country brazil_rule (Date 2024 6 12) = Some false.
Proof. split; [repeat split; cbn; lia|split; vm_compute; reflexivity]. Qed.
Definition canada_rules : list hrule :=
  [Fixed 1 1; Moved [Sat] 2 (Fixed 1 1); Moved [Sun] 1 (Fixed 1 1); Between 2008 9999 (NthDay 3 Mon 2); Easter (-2);
   OnOrBefore Mon 5 24; Fixed 7 1; Moved [Sat] 2 (Fixed 7 1); Moved [Sun] 1 (Fixed 7 1); NthDay 1 Mon 8; NthDay 1 Mon
   9; Between 2021 9999 (Fixed 9 30); Between 2021 9999 (Moved [Sat] 2 (Fixed 9 30)); Between 2021 9999 (Moved [Sun] 1
   (Fixed 9 30)); NthDay 2 Mon 10; Fixed 11 11; Moved [Sat] 2 (Fixed 11 11); Moved [Sun] 1 (Fixed 11 11); Fixed 12 25;
   Moved [Sat; Sun] 2 (Fixed 12 25); Fixed 12 26; Moved [Sat; Sun] 2 (Fixed 12 26)].
Theorem canada_holidays : forall d, valid d -> 1901 <= year d <= 2199 ->
  (country canada_rule d = Some true <-> holiday_by canada_rules d).
Proof. intros d V Y. apply country_flat; [assumption|assumption|reflexivity|]. intros em. unfold rule_at, canada_rule, canada_rules. prove_country d V Y. Qed.
Print Assumptions canada_holidays.
Example canada_case : valid (Date 2023 10 2) /\ country canada_rule (Date 2023 10 2) = Some true /\ country canada_rule (Date 2024 6 12) = Some false.
Proof. split; [repeat split; cbn; lia|split; vm_compute; reflexivity]. Qed.
Definition chile_rules : list hrule :=
  [Fixed 1 1; Between 2017 9999 (Moved [Sun] (1) (Fixed 1 1)); Easter (-2); Easter (-1); Fixed 5 1; Fixed 5 21;
   Between 2021 9999 (Fixed 6 21); Moved [Mon] (0) (Fixed 6 29); Moved [Tue] (-1) (Fixed 6 29); Moved [Wed] (-2)
   (Fixed 6 29); Moved [Thu] (-3) (Fixed 6 29); Moved [Fri] (3) (Fixed 6 29); Fixed 7 16; Fixed 8 15; Between 2007
   9999 (Moved [Tue] (-1) (Fixed 9 18)); Between 2017 9999 (Moved [Sat] (-1) (Fixed 9 18)); Fixed 9 18; Fixed 9 19;
   Between 2007 9999 (Moved [Thu] (1) (Fixed 9 19)); Moved [Mon] (0) (Fixed 10 12); Moved [Tue] (-1) (Fixed 10 12);
   Moved [Wed] (-2) (Fixed 10 12); Moved [Thu] (-3) (Fixed 10 12); Moved [Fri] (3) (Fixed 10 12); Between 2008 9999
   (Moved [Mon; Thu; Fri; Sat; Sun] (0) (Fixed 10 31)); Between 2008 9999 (Moved [Tue] (-4) (Fixed 10 31)); Between
   2008 9999 (Moved [Wed] (2) (Fixed 10 31)); Fixed 11 1; Fixed 12 8; Fixed 12 25].
Theorem chile_holidays : forall d, valid d -> 1901 <= year d <= 2199 ->
  (country chile_rule d = Some true <-> holiday_by chile_rules d).
Proof. intros d V Y. apply country_flat; [assumption|assumption|reflexivity|]. intros em. unfold rule_at, chile_rule, chile_rules. prove_country d V Y. Qed.
Print Assumptions chile_holidays.
Example chile_case : valid (Date 2023 10 27) /\ country chile_rule (Date 2023 10 27) = Some true /\ country chile_rule (Date 2024 6 12) = Some false.
Proof. split; [repeat split; cbn; lia|split; vm_compute; reflexivity]. Qed.
Definition czech_republic_rules : list hrule :=
  [Fixed 1 1; Between 2016 9999 (Easter (-2)); Easter (1); Fixed 5 1; Fixed 5 8; Fixed 7 5; Fixed 7 6; Fixed 9 28;
   Fixed 10 28; Fixed 11 17; Fixed 12 24; Fixed 12 25; Fixed 12 26; Once 2004 1 2; Once 2004 12 31].
Theorem czech_republic_holidays : forall d, valid d -> 1901 <= year d <= 2199 ->
  (country czech_republic_rule d = Some true <-> holiday_by czech_republic_rules d).
Proof. intros d V Y. apply country_flat; [assumption|assumption|reflexivity|]. intros em. unfold rule_at, czech_republic_rule, czech_republic_rules. prove_country d V Y. Qed.
Print Assumptions czech_republic_holidays.
Example czech_republic_case : valid (Date 2024 3 29) /\ country czech_republic_rule (Date 2024 3 29) = Some true /\ country czech_republic_rule (Date 2024 6 12) = Some false.
Proof. split; [repeat split; cbn; lia|split; vm_compute; reflexivity]. Qed.
Definition denmark_rules : list hrule :=
  [Fixed 1 1; Easter (-3); Easter (-2); Easter (1); Between 0 2023 (Easter (26)); Easter (39); Between 2009 9999
   (Easter (40)); Easter (50); Fixed 6 5; Fixed 12 24; Fixed 12 25; Fixed 12 26; Fixed 12 31].
Theorem denmark_holidays : forall d, valid d -> 1901 <= year d <= 2199 ->
  (country denmark_rule d = Some true <-> holiday_by denmark_rules d).
Proof. intros d V Y. apply country_flat; [assumption|assumption|reflexivity|]. intros em. unfold rule_at, denmark_rule, denmark_rules. prove_country d V Y. Qed.
Print Assumptions denmark_holidays.
Example denmark_case : valid (Date 2023 5 5) /\ country denmark_rule (Date 2023 5 5) = Some true /\ country denmark_rule (Date 2024 6 12) = Some false.
Proof. split; [repeat split; cbn; lia|split; vm_compute; reflexivity]. Qed.
Definition finland_rules : list hrule :=
  [Fixed 1 1; Fixed 1 6; Easter (-2); Easter (1); Easter (39); Fixed 5 1; OnOrAfter Fri 6 18; Fixed 12 6; Fixed 12 24;
   Fixed 12 25; Fixed 12 26].
Theorem finland_holidays : forall d, valid d -> 1901 <= year d <= 2199 ->
  (country finland_rule d = Some true <-> holiday_by finland_rules d).
Proof. intros d V Y. apply country_flat; [assumption|assumption|reflexivity|]. intros em. unfold rule_at, finland_rule, finland_rules. prove_country d V Y. Qed.
Print Assumptions finland_holidays.
Example finland_case : valid (Date 2024 6 21) /\ country finland_rule (Date 2024 6 21) = Some true /\ country finland_rule (Date 2024 6 12) = Some false.
Proof. split; [repeat split; cbn; lia|split; vm_compute; reflexivity]. Qed.
Definition france_rules : list hrule :=
  [Fixed 1 1; Easter (1); Fixed 5 1; Fixed 5 8; Fixed 5 10; Fixed 5 21; Fixed 7 14; Fixed 8 15; Fixed 11 1; Fixed 11
   11; Fixed 12 25].
Theorem france_holidays : forall d, valid d -> 1901 <= year d <= 2199 ->
  (country france_rule d = Some true <-> holiday_by france_rules d).
Proof. intros d V Y. apply country_flat; [assumption|assumption|reflexivity|]. intros em. unfold rule_at, france_rule, france_rules. prove_country d V Y. Qed.
Print Assumptions france_holidays.
Example france_case : valid (Date 2024 4 1) /\ country france_rule (Date 2024 4 1) = Some true /\ country france_rule (Date 2024 6 12) = Some false.
Proof. split; [repeat split; cbn; lia|split; vm_compute; reflexivity]. Qed.
Definition germany_rules : list hrule :=
  [Fixed 1 1; Easter (-2); Easter (1); Easter (39); Easter (50); Easter (60); Fixed 5 1; Fixed 10 3; Fixed 12 24;
   Fixed 12 25; Fixed 12 26].
Theorem germany_holidays : forall d, valid d -> 1901 <= year d <= 2199 ->
  (country germany_rule d = Some true <-> holiday_by germany_rules d).
Proof. intros d V Y. apply country_flat; [assumption|assumption|reflexivity|]. intros em. unfold rule_at, germany_rule, germany_rules. prove_country d V Y. Qed.
Print Assumptions germany_holidays.
Example germany_case : valid (Date 2024 5 20) /\ country germany_rule (Date 2024 5 20) = Some true /\ country germany_rule (Date 2024 6 12) = Some false.
Proof. split; [repeat split; cbn; lia|split; vm_compute; reflexivity]. Qed.
Definition hungary_rules : list hrule :=
  [Fixed 1 1; Fixed 3 15; Easter (-2); Easter (1); Easter (50); Fixed 5 1; Fixed 8 20; Fixed 10 23; Fixed 11 1; Fixed
   12 25; Fixed 12 26].
Theorem hungary_holidays : forall d, valid d -> 1901 <= year d <= 2199 ->
  (country hungary_rule d = Some true <-> holiday_by hungary_rules d).
Proof. intros d V Y. apply country_flat; [assumption|assumption|reflexivity|]. intros em. unfold rule_at, hungary_rule, hungary_rules. prove_country d V Y. Qed.
Print Assumptions hungary_holidays.
Example hungary_case : valid (Date 2024 5 20) /\ country hungary_rule (Date 2024 5 20) = Some true /\ country hungary_rule (Date 2024 6 12) = Some false.
Proof. split; [repeat split; cbn; lia|split; vm_compute; reflexivity]. Qed.
Definition iceland_rules : list hrule :=
  [Fixed 1 1; Easter (-3); Easter (-2); Easter (1); Easter (39); Easter (50); OnOrAfter Thu 4 19; Fixed 5 1; Fixed 6
   17; NthDay 1 Mon 8; Fixed 12 24; Fixed 12 25; Fixed 12 26; Fixed 12 31].
Theorem iceland_holidays : forall d, valid d -> 1901 <= year d <= 2199 ->
  (country iceland_rule d = Some true <-> holiday_by iceland_rules d).
Proof. intros d V Y. apply country_flat; [assumption|assumption|reflexivity|]. intros em. unfold rule_at, iceland_rule, iceland_rules. prove_country d V Y. Qed.
Print Assumptions iceland_holidays.
Example iceland_case : valid (Date 2024 4 25) /\ country iceland_rule (Date 2024 4 25) = Some true /\ country iceland_rule (Date 2024 6 12) = Some false.
Proof. split; [repeat split; cbn; lia|split; vm_compute; reflexivity]. Qed.
Definition italy_rules : list hrule :=
  [Fixed 1 1; Fixed 1 6; Easter (1); Fixed 4 25; Fixed 5 1; Fixed 6 2; Fixed 8 15; Fixed 11 1; Fixed 12 8; Fixed 12
   25; Fixed 12 26].
Theorem italy_holidays : forall d, valid d -> 1901 <= year d <= 2199 ->
  (country italy_rule d = Some true <-> holiday_by italy_rules d).
Proof. intros d V Y. apply country_flat; [assumption|assumption|reflexivity|]. intros em. unfold rule_at, italy_rule, italy_rules. prove_country d V Y. Qed.
Print Assumptions italy_holidays.
Example italy_case : valid (Date 2024 4 1) /\ country italy_rule (Date 2024 4 1) = Some true /\ country italy_rule (Date 2024 6 12) = Some false.
Proof. split; [repeat split; cbn; lia|split; vm_compute; reflexivity]. Qed.
Definition mexico_rules : list hrule :=
  [Fixed 1 1; NthDay 1 Mon 2; NthDay 3 Mon 3; Fixed 5 1; Fixed 9 16; NthDay 3 Mon 11; Every 6 2018 (Fixed 10 1); Fixed
   12 25].
Theorem mexico_holidays : forall d, valid d -> 1901 <= year d <= 2199 ->
  (country mexico_rule d = Some true <-> holiday_by mexico_rules d).
Proof. intros d V Y. apply country_flat; [assumption|assumption|reflexivity|]. intros em. unfold rule_at, mexico_rule, mexico_rules. prove_country d V Y. Qed.
Print Assumptions mexico_holidays.
Example mexico_case : valid (Date 2024 10 1) /\ country mexico_rule (Date 2024 10 1) = Some true /\ country mexico_rule (Date 2024 6 12) = Some false.
Proof. split; [repeat split; cbn; lia|split; vm_compute; reflexivity]. Qed.
Definition netherlands_rules : list hrule :=
  [Fixed 1 1; Easter (-2); Easter (0); Easter (1); Easter (39); Easter (49); Easter (50); Moved [Mon; Tue; Wed; Thu;
   Fri; Sat] (0) (Fixed 4 27); Moved [Sun] (-1) (Fixed 4 27); Between 2020 9999 (Every 5 2020 (Fixed 5 5)); Fixed 12
   25; Fixed 12 26].
Theorem netherlands_holidays : forall d, valid d -> 1901 <= year d <= 2199 ->
  (country netherlands_rule d = Some true <-> holiday_by netherlands_rules d).
Proof. intros d V Y. apply country_flat; [assumption|assumption|reflexivity|]. intros em. unfold rule_at, netherlands_rule, netherlands_rules, netherlands_kings_day. prove_country d V Y. Qed.
Print Assumptions netherlands_holidays.
Example netherlands_case : valid (Date 2025 4 26) /\ country netherlands_rule (Date 2025 4 26) = Some true /\ country netherlands_rule (Date 2024 6 12) = Some false.
Proof. split; [repeat split; cbn; lia|split; vm_compute; reflexivity]. Qed.
Definition new_zealand_rules : list hrule :=
  [Fixed 1 1; Moved [Sat; Sun] 2 (Fixed 1 1); Fixed 1 2; Moved [Sat; Sun] 2 (Fixed 1 2); Nearest Mon 1 22; Fixed 2 6;
   Between 2014 9999 (Moved [Sat] (2) (Fixed 2 6)); Between 2014 9999 (Moved [Sun] (1) (Fixed 2 6)); Easter (-2);
   Easter (1); Fixed 4 25; Between 2014 9999 (Moved [Sat] (2) (Fixed 4 25)); Between 2014 9999 (Moved [Sun] (1) (Fixed
   4 25)); NthDay 1 Mon 6; NthDay 4 Mon 10; Fixed 12 25; Moved [Sat; Sun] 2 (Fixed 12 25); Fixed 12 26; Moved [Sat;
   Sun] 2 (Fixed 12 26); Once 2022 6 24; Once 2023 7 14; Once 2024 6 28; Once 2025 6 20; Once 2026 7 10; Once 2027 6
   25; Once 2028 7 14; Once 2029 7 6; Once 2030 6 21; Once 2031 7 11; Once 2032 7 2; Once 2033 6 24; Once 2034 7 7;
   Once 2035 6 29; Once 2036 7 18; Once 2037 7 10; Once 2038 6 25; Once 2039 7 15; Once 2040 7 6; Once 2041 7 19; Once
   2042 7 11; Once 2043 7 3; Once 2044 6 24; Once 2045 7 7; Once 2046 6 29; Once 2047 7 19; Once 2048 7 3; Once 2049 6
   25; Once 2050 7 15; Once 2051 6 30; Once 2052 6 21].
Theorem new_zealand_holidays : forall d, valid d -> 1901 <= year d <= 2199 ->
  (country new_zealand_rule d = Some true <-> holiday_by new_zealand_rules d).
Proof. intros d V Y. apply country_flat; [assumption|assumption|reflexivity|]. intros em. unfold rule_at, new_zealand_rule, new_zealand_rules. prove_country d V Y. Qed.
Print Assumptions new_zealand_holidays.
Example new_zealand_case : valid (Date 2024 6 28) /\ country new_zealand_rule (Date 2024 6 28) = Some true /\ country new_zealand_rule (Date 2024 6 12) = Some false.
Proof. split; [repeat split; cbn; lia|split; vm_compute; reflexivity]. Qed.
Definition switzerland_rules : list hrule :=
  [Fixed 1 1; Fixed 1 2; Easter (-2); Easter (1); Easter (39); Easter (50); Fixed 5 1; Fixed 8 1; Fixed 12 24; Fixed
   12 25; Fixed 12 26; Fixed 12 31].
Theorem switzerland_holidays : forall d, valid d -> 1901 <= year d <= 2199 ->
  (country switzerland_rule d = Some true <-> holiday_by switzerland_rules d).
Proof. intros d V Y. apply country_flat; [assumption|assumption|reflexivity|]. intros em. unfold rule_at, switzerland_rule, switzerland_rules, switzerland_new_year, switzerland_berchtholdstag, switzerland_good_friday, switzerland_easter_monday, switzerland_labour_day, switzerland_ascension_day, switzerland_whit_monday, switzerland_national_holiday, switzerland_christmas_eve, switzerland_christmas_day, switzerland_st_stephens_day, switzerland_new_year_eve. prove_country d V Y. Qed.
Print Assumptions switzerland_holidays.
Example switzerland_case : valid (Date 2024 5 9) /\ country switzerland_rule (Date 2024 5 9) = Some true /\ country switzerland_rule (Date 2024 6 12) = Some false.
Proof. split; [repeat split; cbn; lia|split; vm_compute; reflexivity]. Qed.
Definition united_kingdom_rules : list hrule :=
  [Fixed 1 1; Moved [Sat] 2 (Fixed 1 1); Moved [Sun] 1 (Fixed 1 1); Easter (-2); Easter (1); Except [1995; 2020]
   (NthDay 1 Mon 5); Except [2002; 2012; 2022] (LastDay Mon 5); LastDay Mon 8; Fixed 12 25; Moved [Sat; Sun] 2 (Fixed
   12 25); Fixed 12 26; Moved [Sat; Sun] 2 (Fixed 12 26); Once 1995 5 8; Once 1999 12 31; Once 2002 6 3; Once 2002 6
   4; Once 2011 4 29; Once 2012 6 4; Once 2012 6 5; Once 2020 5 8; Once 2022 6 2; Once 2022 6 3; Once 2022 9 19; Once
   2023 5 8].
Theorem united_kingdom_holidays : forall d, valid d -> 1901 <= year d <= 2199 ->
  (country united_kingdom_rule d = Some true <-> holiday_by united_kingdom_rules d).
Proof. intros d V Y. apply country_flat; [assumption|assumption|reflexivity|]. intros em. unfold rule_at, united_kingdom_rule, united_kingdom_rules, united_kingdom_bank_holiday. prove_country d V Y. Qed.
Print Assumptions united_kingdom_holidays.
Example united_kingdom_case : valid (Date 2022 6 3) /\ country united_kingdom_rule (Date 2022 6 3) = Some true /\ country united_kingdom_rule (Date 2024 6 12) = Some false.
Proof. split; [repeat split; cbn; lia|split; vm_compute; reflexivity]. Qed.
Definition united_states_rules : list hrule :=
  [Fixed 1 1; Moved [Sat] (-1) (Fixed 1 1); Moved [Sun] 1 (Fixed 1 1); Between 1983 9999 (NthDay 3 Mon 1); Between
   1971 9999 (NthDay 3 Mon 2); Between 1971 9999 (LastDay Mon 5); Between 1971 9999 (NthDay 2 Mon 10); Between 0 1970
   (Fixed 2 22); Between 0 1970 (Moved [Sat] (-1) (Fixed 2 22)); Between 0 1970 (Moved [Sun] 1 (Fixed 2 22)); Between
   0 1970 (Fixed 5 30); Between 0 1970 (Moved [Sat] (-1) (Fixed 5 30)); Between 0 1970 (Moved [Sun] 1 (Fixed 5 30));
   Between 2022 9999 (Fixed 6 19); Between 2022 9999 (Moved [Sat] (-1) (Fixed 6 19)); Between 2022 9999 (Moved [Sun] 1
   (Fixed 6 19)); Fixed 7 4; Moved [Sat] (-1) (Fixed 7 4); Moved [Sun] 1 (Fixed 7 4); NthDay 1 Mon 9; Between 0 1970
   (Fixed 11 11); Between 0 1970 (Moved [Sat] (-1) (Fixed 11 11)); Between 0 1970 (Moved [Sun] 1 (Fixed 11 11));
   Between 1978 9999 (Fixed 11 11); Between 1978 9999 (Moved [Sat] (-1) (Fixed 11 11)); Between 1978 9999 (Moved [Sun]
   1 (Fixed 11 11)); Between 1971 1977 (NthDay 4 Mon 10); NthDay 4 Thu 11; Fixed 12 25; Moved [Sat] (-1) (Fixed 12
   25); Moved [Sun] 1 (Fixed 12 25)].
Theorem united_states_holidays : forall d, valid d -> 1901 <= year d <= 2199 ->
  (country united_states_rule d = Some true <-> holiday_by united_states_rules d).
Proof. intros d V Y. apply country_flat; [assumption|assumption|reflexivity|]. intros em. unfold rule_at, united_states_rule, united_states_rules, united_states_washington_birthday, united_states_memorial_day, united_states_labor_day, united_states_columbus_day, united_states_veterans_day, united_states_juneteenth. prove_country d V Y. Qed.
Print Assumptions united_states_holidays.
Example united_states_case : valid (Date 2021 12 31) /\ country united_states_rule (Date 2021 12 31) = Some true /\ country united_states_rule (Date 2024 6 12) = Some false.
Proof. split; [repeat split; cbn; lia|split; vm_compute; reflexivity]. Qed.
Definition hong_kong_rules : list hrule :=
  [Fixed 1 1; Moved [Sun] 1 (Fixed 1 1); Easter (-2); Easter (1); Fixed 5 1; Moved [Sun] 1 (Fixed 5 1); Fixed 7 1;
   Moved [Sun] 1 (Fixed 7 1); Fixed 10 1; Moved [Sun] 1 (Fixed 10 1); Fixed 12 25; Fixed 12 26].
(** the movable feasts, listed year by year in the code *)
Definition hong_kong_tables (dt : date) : bool :=
  let f (g : Z -> Z -> Z -> Z -> Z -> Z -> bool) := g (year dt) (month dt) (day dt) (weekday dt) (ordinal dt) 0 in
  f hong_kong_lunar_new_year
  || f hong_kong_buddhas_birthday
  || f hong_kong_ching_ming_festival
  || f hong_kong_tuen_ng_festival
  || f hong_kong_mid_autumn_festival
  || f hong_kong_chung_yeung_festival
  || f hong_kong_second_day_after_christmas.
Theorem hong_kong_holidays : forall d, valid d -> 1901 <= year d <= 2199 ->
  (country hong_kong_rule d = Some true <-> holiday_by hong_kong_rules d \/ hong_kong_tables d = true).
Proof.
  intros d V Y. apply country_flat_or; [assumption|assumption|reflexivity|]. intros em. unfold rule_at, hong_kong_rule, hong_kong_rules, hong_kong_tables. cbv zeta.
  change (hong_kong_lunar_new_year (year d) (month d) (day d) (weekday d) (ordinal d) 0) with (hong_kong_lunar_new_year (year d) (month d) (day d) (weekday d) (ordinal d) em); generalize (hong_kong_lunar_new_year (year d) (month d) (day d) (weekday d) (ordinal d) em); intros ?.
  change (hong_kong_buddhas_birthday (year d) (month d) (day d) (weekday d) (ordinal d) 0) with (hong_kong_buddhas_birthday (year d) (month d) (day d) (weekday d) (ordinal d) em); generalize (hong_kong_buddhas_birthday (year d) (month d) (day d) (weekday d) (ordinal d) em); intros ?.
  change (hong_kong_ching_ming_festival (year d) (month d) (day d) (weekday d) (ordinal d) 0) with (hong_kong_ching_ming_festival (year d) (month d) (day d) (weekday d) (ordinal d) em); generalize (hong_kong_ching_ming_festival (year d) (month d) (day d) (weekday d) (ordinal d) em); intros ?.
  change (hong_kong_tuen_ng_festival (year d) (month d) (day d) (weekday d) (ordinal d) 0) with (hong_kong_tuen_ng_festival (year d) (month d) (day d) (weekday d) (ordinal d) em); generalize (hong_kong_tuen_ng_festival (year d) (month d) (day d) (weekday d) (ordinal d) em); intros ?.
  change (hong_kong_mid_autumn_festival (year d) (month d) (day d) (weekday d) (ordinal d) 0) with (hong_kong_mid_autumn_festival (year d) (month d) (day d) (weekday d) (ordinal d) em); generalize (hong_kong_mid_autumn_festival (year d) (month d) (day d) (weekday d) (ordinal d) em); intros ?.
  change (hong_kong_chung_yeung_festival (year d) (month d) (day d) (weekday d) (ordinal d) 0) with (hong_kong_chung_yeung_festival (year d) (month d) (day d) (weekday d) (ordinal d) em); generalize (hong_kong_chung_yeung_festival (year d) (month d) (day d) (weekday d) (ordinal d) em); intros ?.
  change (hong_kong_second_day_after_christmas (year d) (month d) (day d) (weekday d) (ordinal d) 0) with (hong_kong_second_day_after_christmas (year d) (month d) (day d) (weekday d) (ordinal d) em); generalize (hong_kong_second_day_after_christmas (year d) (month d) (day d) (weekday d) (ordinal d) em); intros ?.
  prove_country d V Y.
Qed.
Print Assumptions hong_kong_holidays.
Theorem hong_kong_coverage : forall d, hong_kong_tables d = true -> 2004 <= year d <= 2020.
Proof.
  intros d. unfold hong_kong_tables, hong_kong_lunar_new_year, hong_kong_buddhas_birthday, hong_kong_ching_ming_festival, hong_kong_tuen_ng_festival, hong_kong_mid_autumn_festival, hong_kong_chung_yeung_festival, hong_kong_second_day_after_christmas. intros H. breakH; lia.
Qed.
Print Assumptions hong_kong_coverage.
Example hong_kong_case : valid (Date 2019 2 6) /\ country hong_kong_rule (Date 2019 2 6) = Some true /\ country hong_kong_rule (Date 2024 6 12) = Some false.
Proof. split; [repeat split; cbn; lia|split; vm_compute; reflexivity]. Qed.
Definition singapore_rules : list hrule :=
  [Fixed 1 1; Moved [Sun] 1 (Fixed 1 1); Easter (-2); Fixed 5 1; Moved [Sun] 1 (Fixed 5 1); Fixed 8 9; Moved [Sun] 1
   (Fixed 8 9); Fixed 12 25; Moved [Sun] 1 (Fixed 12 25); Fixed 1 25; Fixed 2 25; Fixed 3 25; Fixed 4 25; Fixed 5 25;
   Fixed 6 25; Fixed 7 25; Fixed 8 25; Fixed 9 25; Fixed 10 25; Fixed 11 25].
(** the movable feasts, listed year by year in the code *)
Definition singapore_tables (dt : date) : bool :=
  let f (g : Z -> Z -> Z -> Z -> Z -> Z -> bool) := g (year dt) (month dt) (day dt) (weekday dt) (ordinal dt) 0 in
  f singapore_chinese_new_year
  || f singapore_hari_raya_haji
  || f singapore_hari_raya_puasa
  || f singapore_vesak_day
  || f singapore_deepavali.
Theorem singapore_holidays : forall d, valid d -> 1901 <= year d <= 2199 ->
  (country singapore_rule d = Some true <-> holiday_by singapore_rules d \/ singapore_tables d = true).
Proof.
  intros d V Y. apply country_flat_or; [assumption|assumption|reflexivity|]. intros em. unfold rule_at, singapore_rule, singapore_rules, singapore_tables. cbv zeta.
  change (singapore_chinese_new_year (year d) (month d) (day d) (weekday d) (ordinal d) 0) with (singapore_chinese_new_year (year d) (month d) (day d) (weekday d) (ordinal d) em); generalize (singapore_chinese_new_year (year d) (month d) (day d) (weekday d) (ordinal d) em); intros ?.
  change (singapore_hari_raya_haji (year d) (month d) (day d) (weekday d) (ordinal d) 0) with (singapore_hari_raya_haji (year d) (month d) (day d) (weekday d) (ordinal d) em); generalize (singapore_hari_raya_haji (year d) (month d) (day d) (weekday d) (ordinal d) em); intros ?.
  change (singapore_hari_raya_puasa (year d) (month d) (day d) (weekday d) (ordinal d) 0) with (singapore_hari_raya_puasa (year d) (month d) (day d) (weekday d) (ordinal d) em); generalize (singapore_hari_raya_puasa (year d) (month d) (day d) (weekday d) (ordinal d) em); intros ?.
  change (singapore_vesak_day (year d) (month d) (day d) (weekday d) (ordinal d) 0) with (singapore_vesak_day (year d) (month d) (day d) (weekday d) (ordinal d) em); generalize (singapore_vesak_day (year d) (month d) (day d) (weekday d) (ordinal d) em); intros ?.
  change (singapore_deepavali (year d) (month d) (day d) (weekday d) (ordinal d) 0) with (singapore_deepavali (year d) (month d) (day d) (weekday d) (ordinal d) em); generalize (singapore_deepavali (year d) (month d) (day d) (weekday d) (ordinal d) em); intros ?.
  prove_country d V Y.
Qed.
Print Assumptions singapore_holidays.
Theorem singapore_coverage : forall d, singapore_tables d = true -> 2004 <= year d <= 2024.
Proof.
  intros d. unfold singapore_tables, singapore_chinese_new_year, singapore_hari_raya_haji, singapore_hari_raya_puasa, singapore_vesak_day, singapore_deepavali. intros H. breakH; lia.
Qed.
Print Assumptions singapore_coverage.
Example singapore_case : valid (Date 2024 5 22) /\ country singapore_rule (Date 2024 5 22) = Some true /\ country singapore_rule (Date 2024 6 12) = Some false.
Proof. split; [repeat split; cbn; lia|split; vm_compute; reflexivity]. Qed.
Definition india_rules : list hrule :=
  [Fixed 1 26; Easter (-2); Fixed 5 1; Fixed 8 15; Fixed 10 2; Fixed 12 25].
(** the movable feasts, listed year by year in the code *)
Definition india_tables (dt : date) : bool :=
  let f (g : Z -> Z -> Z -> Z -> Z -> Z -> bool) := g (year dt) (month dt) (day dt) (weekday dt) (ordinal dt) 0 in
  f india_mahashivratri
  || f india_holi
  || f india_eid_ul_fitar
  || f india_rama_navami
  || f india_mahavir_jayanti
  || f india_bakri_id
  || f india_muharram
  || f india_dussehra
  || f india_diwali
  || f india_gurunanak_jayanti.
Theorem india_holidays : forall d, valid d -> 1901 <= year d <= 2199 ->
  (country india_rule d = Some true <-> holiday_by india_rules d \/ india_tables d = true).
Proof.
  intros d V Y. apply country_flat_or; [assumption|assumption|reflexivity|]. intros em. unfold rule_at, india_rule, india_rules, india_tables. cbv zeta.
  change (india_mahashivratri (year d) (month d) (day d) (weekday d) (ordinal d) 0) with (india_mahashivratri (year d) (month d) (day d) (weekday d) (ordinal d) em); generalize (india_mahashivratri (year d) (month d) (day d) (weekday d) (ordinal d) em); intros ?.
  change (india_holi (year d) (month d) (day d) (weekday d) (ordinal d) 0) with (india_holi (year d) (month d) (day d) (weekday d) (ordinal d) em); generalize (india_holi (year d) (month d) (day d) (weekday d) (ordinal d) em); intros ?.
  change (india_eid_ul_fitar (year d) (month d) (day d) (weekday d) (ordinal d) 0) with (india_eid_ul_fitar (year d) (month d) (day d) (weekday d) (ordinal d) em); generalize (india_eid_ul_fitar (year d) (month d) (day d) (weekday d) (ordinal d) em); intros ?.
  change (india_rama_navami (year d) (month d) (day d) (weekday d) (ordinal d) 0) with (india_rama_navami (year d) (month d) (day d) (weekday d) (ordinal d) em); generalize (india_rama_navami (year d) (month d) (day d) (weekday d) (ordinal d) em); intros ?.
  change (india_mahavir_jayanti (year d) (month d) (day d) (weekday d) (ordinal d) 0) with (india_mahavir_jayanti (year d) (month d) (day d) (weekday d) (ordinal d) em); generalize (india_mahavir_jayanti (year d) (month d) (day d) (weekday d) (ordinal d) em); intros ?.
  change (india_bakri_id (year d) (month d) (day d) (weekday d) (ordinal d) 0) with (india_bakri_id (year d) (month d) (day d) (weekday d) (ordinal d) em); generalize (india_bakri_id (year d) (month d) (day d) (weekday d) (ordinal d) em); intros ?.
  change (india_muharram (year d) (month d) (day d) (weekday d) (ordinal d) 0) with (india_muharram (year d) (month d) (day d) (weekday d) (ordinal d) em); generalize (india_muharram (year d) (month d) (day d) (weekday d) (ordinal d) em); intros ?.
  change (india_dussehra (year d) (month d) (day d) (weekday d) (ordinal d) 0) with (india_dussehra (year d) (month d) (day d) (weekday d) (ordinal d) em); generalize (india_dussehra (year d) (month d) (day d) (weekday d) (ordinal d) em); intros ?.
  change (india_diwali (year d) (month d) (day d) (weekday d) (ordinal d) 0) with (india_diwali (year d) (month d) (day d) (weekday d) (ordinal d) em); generalize (india_diwali (year d) (month d) (day d) (weekday d) (ordinal d) em); intros ?.
  change (india_gurunanak_jayanti (year d) (month d) (day d) (weekday d) (ordinal d) 0) with (india_gurunanak_jayanti (year d) (month d) (day d) (weekday d) (ordinal d) em); generalize (india_gurunanak_jayanti (year d) (month d) (day d) (weekday d) (ordinal d) em); intros ?.
  prove_country d V Y.
Qed.
Print Assumptions india_holidays.
Theorem india_coverage : forall d, india_tables d = true -> 2000 <= year d <= 2029.
Proof.
  intros d. unfold india_tables, india_mahashivratri, india_holi, india_eid_ul_fitar, india_rama_navami, india_mahavir_jayanti, india_bakri_id, india_muharram, india_dussehra, india_diwali, india_gurunanak_jayanti. intros H. breakH; lia.
Qed.
Print Assumptions india_coverage.
Example india_case : valid (Date 2024 10 31) /\ country india_rule (Date 2024 10 31) = Some true /\ country india_rule (Date 2024 6 12) = Some false.
Proof. split; [repeat split; cbn; lia|split; vm_compute; reflexivity]. Qed.
Definition indonesia_rules : list hrule :=
  [Fixed 1 1; Easter (-2); Easter (39); Fixed 5 1; Fixed 6 1; Fixed 8 17; Fixed 12 25; Fixed 12 26; Once 2007 5 18;
   Once 2008 5 2; Once 2024 5 10].
(** the movable feasts, listed year by year in the code *)
Definition indonesia_tables (dt : date) : bool :=
  let f (g : Z -> Z -> Z -> Z -> Z -> Z -> bool) := g (year dt) (month dt) (day dt) (weekday dt) (ordinal dt) 0 in
  f indonesia_ascension_day_of_prophet_muhammad
  || f indonesia_lunar_new_year
  || f indonesia_hindu_new_year
  || f indonesia_eid_ul_fitar
  || f indonesia_vesak_day
  || f indonesia_eid_ul_adha
  || f indonesia_muharram
  || f indonesia_birth_of_prophet_muhammad.
Theorem indonesia_holidays : forall d, valid d -> 1901 <= year d <= 2199 ->
  (country indonesia_rule d = Some true <-> holiday_by indonesia_rules d \/ indonesia_tables d = true).
Proof.
  intros d V Y. apply country_flat_or; [assumption|assumption|reflexivity|]. intros em. unfold rule_at, indonesia_rule, indonesia_rules, indonesia_tables. cbv zeta.
  change (indonesia_ascension_day_of_prophet_muhammad (year d) (month d) (day d) (weekday d) (ordinal d) 0) with (indonesia_ascension_day_of_prophet_muhammad (year d) (month d) (day d) (weekday d) (ordinal d) em); generalize (indonesia_ascension_day_of_prophet_muhammad (year d) (month d) (day d) (weekday d) (ordinal d) em); intros ?.
  change (indonesia_lunar_new_year (year d) (month d) (day d) (weekday d) (ordinal d) 0) with (indonesia_lunar_new_year (year d) (month d) (day d) (weekday d) (ordinal d) em); generalize (indonesia_lunar_new_year (year d) (month d) (day d) (weekday d) (ordinal d) em); intros ?.
  change (indonesia_hindu_new_year (year d) (month d) (day d) (weekday d) (ordinal d) 0) with (indonesia_hindu_new_year (year d) (month d) (day d) (weekday d) (ordinal d) em); generalize (indonesia_hindu_new_year (year d) (month d) (day d) (weekday d) (ordinal d) em); intros ?.
  change (indonesia_eid_ul_fitar (year d) (month d) (day d) (weekday d) (ordinal d) 0) with (indonesia_eid_ul_fitar (year d) (month d) (day d) (weekday d) (ordinal d) em); generalize (indonesia_eid_ul_fitar (year d) (month d) (day d) (weekday d) (ordinal d) em); intros ?.
  change (indonesia_vesak_day (year d) (month d) (day d) (weekday d) (ordinal d) 0) with (indonesia_vesak_day (year d) (month d) (day d) (weekday d) (ordinal d) em); generalize (indonesia_vesak_day (year d) (month d) (day d) (weekday d) (ordinal d) em); intros ?.
  change (indonesia_eid_ul_adha (year d) (month d) (day d) (weekday d) (ordinal d) 0) with (indonesia_eid_ul_adha (year d) (month d) (day d) (weekday d) (ordinal d) em); generalize (indonesia_eid_ul_adha (year d) (month d) (day d) (weekday d) (ordinal d) em); intros ?.
  change (indonesia_muharram (year d) (month d) (day d) (weekday d) (ordinal d) 0) with (indonesia_muharram (year d) (month d) (day d) (weekday d) (ordinal d) em); generalize (indonesia_muharram (year d) (month d) (day d) (weekday d) (ordinal d) em); intros ?.
  change (indonesia_birth_of_prophet_muhammad (year d) (month d) (day d) (weekday d) (ordinal d) 0) with (indonesia_birth_of_prophet_muhammad (year d) (month d) (day d) (weekday d) (ordinal d) em); generalize (indonesia_birth_of_prophet_muhammad (year d) (month d) (day d) (weekday d) (ordinal d) em); intros ?.
  prove_country d V Y.
Qed.
Print Assumptions indonesia_holidays.
Theorem indonesia_coverage : forall d, indonesia_tables d = true -> year d <= 2025.
Proof.
  intros d. unfold indonesia_tables, indonesia_ascension_day_of_prophet_muhammad, indonesia_lunar_new_year, indonesia_hindu_new_year, indonesia_eid_ul_fitar, indonesia_vesak_day, indonesia_eid_ul_adha, indonesia_muharram, indonesia_birth_of_prophet_muhammad. intros H. breakH; lia.
Qed.
Print Assumptions indonesia_coverage.
Example indonesia_case : valid (Date 2024 5 9) /\ country indonesia_rule (Date 2024 5 9) = Some true /\ country indonesia_rule (Date 2024 6 12) = Some false.
Proof. split; [repeat split; cbn; lia|split; vm_compute; reflexivity]. Qed.
