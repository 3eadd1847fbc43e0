(** C76: the tables of lunar feasts. *)
From Coq Require Import ZArith List Bool Lia.
From Verif Require Import Res DateModel CalModel CountryModel CountrySpec CountryProps.
Import ListNotations.
Open Scope Z_scope.
(** ** Lunar feasts: one date in each year of the table, and from one year to the next
    twelve or thirteen lunations *)
Definition lunar (t : Z -> Z -> Z -> Z -> Z -> Z -> bool) (y0 y1 : Z) : Prop :=
  forall y, y0 <= y <= y1 -> exists d, valid d /\ year d = y /\
    (forall e wd yd em, valid e -> (year e = y /\ t (year e) (month e) (day e) wd yd em = true <-> e = d)) /\
    (y < y1 -> forall e wd yd em, valid e -> year e = y + 1 -> t (year e) (month e) (day e) wd yd em = true ->
       352 <= daynum e - daynum d <= 357 \/ 382 <= daynum e - daynum d <= 386).
Definition feast (t : Z -> Z -> Z -> Z -> Z -> Z -> bool) (y : Z) : option date :=
  find (fun d => t (year d) (month d) (day d) 0 0 0)
    (flat_map (fun m => map (fun k => Date y (Z.of_nat m) (Z.of_nat k)) (seq 1 31)) (seq 1 12)).
Ltac lunar_tac t y0 n :=
  let y := fresh "y" in let Y := fresh "Y" in let E := fresh "E" in let H := fresh "H" in let V := fresh "V" in let L := fresh "L" in intros y Y; range_cases y y0 n; subst y;
  match goal with |- exists d, _ /\ year d = ?y /\ _ => let w := eval vm_compute in (feast t y) in match w with Some ?d => exists d end end;
  (split; [repeat split; cbn; lia|]); (split; [reflexivity|]);
  (split; [ intros [? ? ?] ? ? ? V; split;
    [intros [E H]; cbn [year month day] in *; subst; unfold t in H; cbn -[Z.eqb] in H; cbn in H; breakH; subst; try discriminate; reflexivity
    |intros E; injection E as -> -> ->; split; reflexivity]
  | intros L; try (exfalso; lia); intros [? ? ?] ? ? ? V E H; cbn [year month day] in *; subst; unfold t in H; cbn in H; breakH; subst; try discriminate; vm_compute; intuition discriminate ]).
Theorem hong_kong_buddhas_birthday_lunar : lunar hong_kong_buddhas_birthday 2004 2020.
Proof. lunar_tac hong_kong_buddhas_birthday 2004 17%nat. Qed.
Print Assumptions hong_kong_buddhas_birthday_lunar.
Theorem hong_kong_tuen_ng_festival_lunar : lunar hong_kong_tuen_ng_festival 2004 2020.
Proof. lunar_tac hong_kong_tuen_ng_festival 2004 17%nat. Qed.
Print Assumptions hong_kong_tuen_ng_festival_lunar.
Theorem hong_kong_mid_autumn_festival_lunar : lunar hong_kong_mid_autumn_festival 2004 2020.
Proof. lunar_tac hong_kong_mid_autumn_festival 2004 17%nat. Qed.
Print Assumptions hong_kong_mid_autumn_festival_lunar.
Theorem india_mahashivratri_lunar : lunar india_mahashivratri 2000 2029.
Proof. lunar_tac india_mahashivratri 2000 30%nat. Qed.
Print Assumptions india_mahashivratri_lunar.
Theorem india_holi_lunar : lunar india_holi 2000 2029.
Proof. lunar_tac india_holi 2000 30%nat. Qed.
Print Assumptions india_holi_lunar.
Theorem india_rama_navami_lunar : lunar india_rama_navami 2000 2029.
Proof. lunar_tac india_rama_navami 2000 30%nat. Qed.
Print Assumptions india_rama_navami_lunar.
Theorem india_mahavir_jayanti_lunar : lunar india_mahavir_jayanti 2005 2025.
Proof. lunar_tac india_mahavir_jayanti 2005 21%nat. Qed.
Print Assumptions india_mahavir_jayanti_lunar.
Theorem india_dussehra_lunar : lunar india_dussehra 2000 2029.
Proof. lunar_tac india_dussehra 2000 30%nat. Qed.
Print Assumptions india_dussehra_lunar.
Theorem india_diwali_lunar : lunar india_diwali 2000 2029.
Proof. lunar_tac india_diwali 2000 30%nat. Qed.
Print Assumptions india_diwali_lunar.
Theorem india_gurunanak_jayanti_lunar : lunar india_gurunanak_jayanti 2005 2025.
Proof. lunar_tac india_gurunanak_jayanti 2005 21%nat. Qed.
Print Assumptions india_gurunanak_jayanti_lunar.
Example lunar_case : feast india_diwali 2024 = Some (Date 2024 10 31) /\ feast hong_kong_mid_autumn_festival 2019 = Some (Date 2019 9 14).
Proof. split; reflexivity. Qed.

(** ** Tables that fail it *)
(** Vesak Day 2005 is entered in October, though the feast falls in May or June *)
Theorem singapore_vesak_refuted :
  country singapore_rule (Date 2005 10 24) = Some false /\ (forall m dd wd yd em, singapore_vesak_day 2005 m dd wd yd em = true <-> m = 10 /\ (dd = 22 \/ dd = 23)) /\
  (forall y m dd wd yd em, y <> 2005 -> singapore_vesak_day y m dd wd yd em = true -> m = 5 \/ m = 6).
Proof.
  split; [reflexivity|]. split.
  - intros m dd wd yd em. unfold singapore_vesak_day. cbn. split; intros H; breakH; try (exfalso; lia); try pick. assert (Q : dd = 22 \/ dd = 23) by lia. destruct Q; pick.
  - intros y m dd wd yd em N H. unfold singapore_vesak_day in H. breakH; try (exfalso; lia); lia.
Qed.
Print Assumptions singapore_vesak_refuted.
(** Eid al-Fitr comes every lunar year; Indonesia's table has none in 2011-2013 and 2017 *)
Theorem indonesia_eid_refuted : forall y m dd wd yd em, In y [2011; 2012; 2013; 2017] -> indonesia_eid_ul_fitar y m dd wd yd em = false.
Proof. intros y m dd wd yd em H. cbn [In] in H. destruct H as [<-|[<-|[<-|[<-|[]]]]]; reflexivity. Qed.
Print Assumptions indonesia_eid_refuted.
(** The feast of sacrifice came twice in 2006, on 10 or 11 January and on 31 December
    or 1 January 2007; the second is missing for India and Singapore *)
Theorem eid_al_adha_refuted : forall d, valid d -> daynum (Date 2006 1 12) <= daynum d <= daynum (Date 2007 12 18) ->
  india_bakri_id (year d) (month d) (day d) 0 0 0 = false /\ singapore_hari_raya_haji (year d) (month d) (day d) 0 0 0 = false.
Proof.
  intros d V B. assert (Y : year d = 2006 \/ year d = 2007).
  { pose proof (ordinal_range d V) as R. unfold daynum in B at 2 3. change (daynum (Date 2006 1 12)) with (before_year 2006 + 12) in B. change (daynum (Date 2007 12 18)) with (before_year 2007 + 352) in B.
    destruct (Z_lt_le_dec (year d) 2006) as [L|L]; [exfalso|destruct (Z_lt_le_dec 2007 (year d)) as [G|G]; [exfalso|lia]].
    - pose proof (before_year_le (year d + 1) 2006 ltac:(lia)). pose proof (before_year_step (year d)). lia.
    - pose proof (before_year_le 2008 (year d) ltac:(lia)). pose proof (before_year_step 2007) as S. change (2007 + 1) with 2008 in S. change (days_in_year 2007) with 365 in S. lia. }
  destruct d as [y m dd]. cbn [year month day] in *. destruct Y as [-> | ->]; split; apply not_true_iff_false; intros H;
    unfold india_bakri_id, singapore_hari_raya_haji in H; revert B; breakH; try discriminate; subst; vm_compute; intuition discriminate.
Qed.
Print Assumptions eid_al_adha_refuted.
Example eid_al_adha_case : india_bakri_id 2006 1 11 0 0 0 = true /\ singapore_hari_raya_haji 2007 12 19 0 0 0 = true.
Proof. split; reflexivity. Qed.
