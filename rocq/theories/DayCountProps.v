(** Day-count conventions, Easter tables, schedules and frequencies: proofs and
    theorems (C15, C16, C54, C55). *)
From Coq Require Import ZArith QArith List Bool Lia ZifyBool Lqa Field Sorted.
From Verif Require Import Res DateModel CalModel CalProofs DayCountModel.
Import ListNotations.
Open Scope Z_scope.

Lemma inject_sub a b : (inject_Z (a - b) == inject_Z a - inject_Z b)%Q.
Proof. unfold Z.sub. rewrite inject_Z_plus, inject_Z_opp. ring. Qed.

Lemma over_mul n q : ~ (q == 0)%Q -> (over n q * q == inject_Z n)%Q.
Proof. intros H. unfold over. field. exact H. Qed.

(** ** C15 Actual over a constant *)

Definition fixed_den (c : convention) : option Q :=
  match c with
  | Actual_360 => Some 360%Q | Actual_364 => Some 364%Q | Actual_365_Fixed => Some 365%Q
  | Actual_366 => Some 366%Q | Actual_365_25 => Some (365 + (1#4))%Q
  | _ => None
  end.

Theorem dc_actual_constant : forall c q a b, fixed_den c = Some q ->
  exists f, day_count_factor c a b = Ret f /\ (f * q == inject_Z (daynum b - daynum a))%Q.
Proof.
  intros c q a b H. destruct c; try discriminate; injection H as <-; simpl;
    (eexists; split; [reflexivity|]); unfold over, whole_days; field; discriminate.
Qed.
Print Assumptions dc_actual_constant.
Example dc_actual_constant_case :
  day_count_factor Actual_360 (Date 2023 1 1) (Date 2024 1 1) = Ret (inject_Z 365 / 360)%Q.
Proof. reflexivity. Qed.

(** sign, zero and additivity *)
Theorem dc_actual_laws : forall c q a b m f g h, fixed_den c = Some q ->
  valid a -> valid b ->
  day_count_factor c a b = Ret f -> day_count_factor c a m = Ret g -> day_count_factor c m b = Ret h ->
  (f == g + h)%Q /\ ((f == 0)%Q <-> a = b) /\ ((0 < f)%Q <-> date_ltb a b = true).
Proof.
  intros c q a b m f g h H Va Vb Hf Hg Hh.
  assert (Q0 : (0 < q)%Q) by (destruct c; try discriminate; injection H as <-; reflexivity).
  assert (Qn : ~ (q == 0)%Q) by (intros X; rewrite X in Q0; discriminate).
  destruct (dc_actual_constant c q a b H) as (f' & E & F). rewrite Hf in E. injection E as <-.
  destruct (dc_actual_constant c q a m H) as (g' & E & G). rewrite Hg in E. injection E as <-.
  destruct (dc_actual_constant c q m b H) as (h' & E & K). rewrite Hh in E. injection E as <-.
  split; [|split].
  - apply (Qmult_inj_r _ _ q); [exact Qn|]. rewrite Qmult_plus_distr_l, F, G, K, !inject_sub. ring.
  - split.
    + intros Z0. rewrite Z0, Qmult_0_l in F. apply daynum_inj; try assumption.
      assert (inject_Z 0 == inject_Z (daynum b - daynum a))%Q as E by exact F.
      apply (proj1 (inject_Z_injective _ _)) in E. lia.
    + intros <-. rewrite Z.sub_diag in F. apply (Qmult_inj_r _ _ q); [exact Qn|]. rewrite F. ring.
  - rewrite daynum_lt by assumption. rewrite <- (Qmult_lt_r _ _ q Q0), F, Qmult_0_l.
    change 0%Q with (inject_Z 0). rewrite <- Zlt_Qlt. lia.
Qed.
Print Assumptions dc_actual_laws.
Example dc_actual_laws_case : fixed_den Actual_365_25 = Some (365 + (1#4))%Q /\
  valid (Date 2024 2 28) /\ valid (Date 2024 3 1) /\
  day_count_factor Actual_365_25 (Date 2024 2 28) (Date 2024 3 1) = Ret (over 2 (1461 # 4)).
Proof. repeat split; try reflexivity; discriminate. Qed.

(** ** C15 thirty-day months *)

Definition plain_day (d : date) : Prop := day d <= 30 /\ ~ (month d = 2 /\ is_last_day_of_month d = true).
Lemma plain_feb d : plain_day d -> is_last_day_of_february d = false.
Proof.
  intros [_ H]. destruct (is_last_day_of_february d) eqn:E; [|reflexivity]. exfalso. apply H.
  revert E. destruct d as [y m d]. unfold is_last_day_of_february, is_last_day_of_month, month_length.
  cbn [year month day]. destruct (Z.eqb_spec m 2) as [->|]; cbn [andb orb]; [|discriminate].
  destruct (is_leap y); cbn [negb]; rewrite ?andb_false_r, ?andb_true_r, ?orb_false_r, ?orb_false_l; auto.
Qed.

(** away from month ends all six agree on (360 dY + 30 dM + dD) *)
Theorem dc_thirty_plain : forall c a b, plain_day a -> plain_day b ->
  In c [Thirty_360_ISDA; Thirty_E_360; Thirty_E_360_ISDA; Thirty_E_Plus_360; Thirty_U_360; Thirty_E_365] ->
  exists f, day_count_factor c a b = Ret f /\
    (f * (if match c with Thirty_E_365 => true | _ => false end then 365 else 360) ==
     inject_Z (360 * (year b - year a) + 30 * (month b - month a) + (day b - day a)))%Q.
Proof.
  intros c a b Pa Pb H. pose proof (plain_feb a Pa) as Fa. pose proof (plain_feb b Pb) as Fb.
  destruct Pa as [Da _], Pb as [Db _].
  assert (Ea : (day a =? 31) = false) by (apply Z.eqb_neq; lia).
  assert (Eb : (day b =? 31) = false) by (apply Z.eqb_neq; lia).
  destruct H as [<-|[<-|[<-|[<-|[<-|[<-|[]]]]]]]; simpl;
    unfold dcf_30_isda, dcf_30e, dcf_30e_isda, dcf_30e_plus, dcf_30u; rewrite ?Ea, ?Eb, ?Fa, ?Fb;
    cbn [orb andb bind]; rewrite ?andb_false_r; (eexists; split; [reflexivity|]);
    cbv beta iota; apply over_mul; discriminate.
Qed.
Print Assumptions dc_thirty_plain.
Example dc_thirty_plain_case :
  plain_day (Date 2011 6 17) /\ plain_day (Date 2012 12 30) /\
  day_count_factor Thirty_E_365 (Date 2011 6 17) (Date 2012 12 30) = Ret (over 553 365).
Proof.
  split; [split; [simpl; lia|intros [H _]; discriminate]|].
  split; [split; [simpl; lia|intros [H _]; discriminate]|]. reflexivity.
Qed.

(** end-of-month adjustments of the European variants: both dates are adjusted
    separately, so each is a difference of positions on a 30-day-month scale;
    the factors are antisymmetric and additive for any three dates *)
Definition eom_31 (d : date) : Z := if day d =? 31 then 30 else day d.
Definition eom_31_feb (d : date) : Z :=
  if (day d =? 31) || ((month d =? 2) && is_last_day_of_month d) then 30 else day d.
Definition position (adj : date -> Z) (d : date) : Z := 360 * year d + 30 * month d + adj d.

Lemma feb_last_eq d : is_last_day_of_february d = (month d =? 2) && is_last_day_of_month d.
Proof.
  destruct d as [y m d]. unfold is_last_day_of_february, is_last_day_of_month, month_length.
  cbn [year month day]. destruct (Z.eqb_spec m 2) as [->|]; cbn [andb orb]; [|reflexivity].
  destruct (is_leap y); cbn [negb]; rewrite ?andb_false_r, ?andb_true_r, ?orb_false_r, ?orb_false_l; reflexivity.
Qed.

Theorem dc_thirty_european : forall c adj q a b,
  In (c, adj, q) [(Thirty_E_360, eom_31, 360%Q); (Thirty_E_360_ISDA, eom_31_feb, 360%Q);
                  (Thirty_E_365, eom_31_feb, 365%Q)] ->
  exists f, day_count_factor c a b = Ret f /\ (f * q == inject_Z (position adj b - position adj a))%Q.
Proof.
  intros c adj q a b H. destruct H as [H|[H|[H|[]]]]; injection H as <- <- <-; simpl;
    (eexists; split; [reflexivity|]);
    unfold dcf_30e, dcf_30e_isda, over, numerator, position, eom_31, eom_31_feb; rewrite ?feb_last_eq;
    match goal with |- (inject_Z ?n / _ * _ == inject_Z ?m)%Q => replace m with n by ring end;
    field; discriminate.
Qed.
Print Assumptions dc_thirty_european.
Example dc_thirty_european_case :
  day_count_factor Thirty_E_360_ISDA (Date 2023 2 28) (Date 2023 8 31) = Ret (over 180 360) /\
  day_count_factor Thirty_E_360 (Date 2023 2 28) (Date 2023 8 31) = Ret (over 182 360).
Proof. split; reflexivity. Qed.

Theorem dc_thirty_european_laws : forall c a b m f g h r,
  In c [Thirty_E_360; Thirty_E_360_ISDA; Thirty_E_365] ->
  day_count_factor c a b = Ret f -> day_count_factor c a m = Ret g -> day_count_factor c m b = Ret h ->
  day_count_factor c b a = Ret r ->
  (f == g + h)%Q /\ (r == - f)%Q.
Proof.
  intros c a b m f g h r H Hf Hg Hh Hr.
  assert (exists adj q, (0 < q)%Q /\ In (c, adj, q) [(Thirty_E_360, eom_31, 360%Q); (Thirty_E_360_ISDA, eom_31_feb, 360%Q);
                  (Thirty_E_365, eom_31_feb, 365%Q)]) as (adj & q & Q0 & K).
  { simpl in H. destruct H as [<-|[<-|[<-|[]]]].
    - exists eom_31, 360%Q. split; [reflexivity|left; reflexivity].
    - exists eom_31_feb, 360%Q. split; [reflexivity|right; left; reflexivity].
    - exists eom_31_feb, 365%Q. split; [reflexivity|right; right; left; reflexivity]. }
  assert (Qn : ~ (q == 0)%Q) by (intros X; rewrite X in Q0; discriminate).
  destruct (dc_thirty_european c adj q a b K) as (f' & E & F). rewrite Hf in E. injection E as <-.
  destruct (dc_thirty_european c adj q a m K) as (g' & E & G). rewrite Hg in E. injection E as <-.
  destruct (dc_thirty_european c adj q m b K) as (h' & E & I). rewrite Hh in E. injection E as <-.
  destruct (dc_thirty_european c adj q b a K) as (r' & E & R). rewrite Hr in E. injection E as <-.
  split; apply (Qmult_inj_r _ _ q); try exact Qn.
  - rewrite Qmult_plus_distr_l, F, G, I, !inject_sub. ring.
  - setoid_replace (- f * q)%Q with (- (f * q))%Q by ring. rewrite R, F, !inject_sub. ring.
Qed.
Print Assumptions dc_thirty_european_laws.

(** the ISDA 30/360 variant adjusts the end date depending on the start date:
    it is not additive and not antisymmetric *)
Theorem dc_thirty_isda_not_additive : exists a m b f g h,
  date_ltb a m = true /\ date_ltb m b = true /\
  day_count_factor Thirty_360_ISDA a b = Ret f /\ day_count_factor Thirty_360_ISDA a m = Ret g /\
  day_count_factor Thirty_360_ISDA m b = Ret h /\ ~ (f == g + h)%Q.
Proof.
  exists (Date 2023 1 29), (Date 2023 1 30), (Date 2023 3 31).
  do 3 eexists. split; [reflexivity|]. split; [reflexivity|]. split; [reflexivity|].
  split; [reflexivity|]. split; [reflexivity|]. vm_compute. discriminate.
Qed.
Print Assumptions dc_thirty_isda_not_additive.
(** 30/360 ISDA: exact adjustments *)
Theorem dc_thirty_360_isda : forall a b, exists f, day_count_factor Thirty_360_ISDA a b = Ret f /\
  let d1 := if day a =? 31 then 30 else day a in
  let d2 := if (day b =? 31) && ((day a =? 30) || (day a =? 31)) then 30 else day b in
  (f * 360 == inject_Z (360 * (year b - year a) + 30 * (month b - month a) + (d2 - d1)))%Q.
Proof.
  intros a b. eexists. split; [reflexivity|]. cbv zeta. unfold dcf_30_isda.
  destruct (Z.eqb_spec (day a) 31) as [E|E].
  - rewrite E. change (31 =? 30) with false. change (30 =? 30) with true. cbn [orb andb].
    rewrite andb_true_r. apply over_mul. discriminate.
  - rewrite orb_false_r, (andb_comm (day b =? 31)). apply over_mul. discriminate.
Qed.
Print Assumptions dc_thirty_360_isda.

(** 30E+/360 panics on the last supported date *)
Theorem dc_thirty_e_plus : forall a b, valid b ->
  (b = date_max -> day_count_factor Thirty_E_Plus_360 a b = Panic) /\
  (b <> date_max -> exists f e, day_count_factor Thirty_E_Plus_360 a b = Ret f /\
     valid e /\ (day b <> 31 -> e = b) /\ (day b = 31 -> daynum e = daynum b + 1 /\ day e = 1) /\
     (f * 360 == inject_Z (360 * (year e - year a) + 30 * (month e - month a) + (day e - eom_31 a)))%Q).
Proof.
  intros a b V. split; [intros ->; reflexivity|]. intros N. simpl. unfold dcf_30e_plus.
  destruct (Z.eqb_spec (day b) 31) as [E|E].
  - destruct (next_day b) as [e|] eqn:X.
    + simpl. destruct (next_day_spec b e V X) as [Ve Ne]. do 2 eexists. split; [reflexivity|].
      split; [exact Ve|]. split; [intros K; contradiction|]. split.
      * intros _. split; [assumption|].
        unfold next_day in X. pose proof (month_length_range (year b) (month b)).
        destruct (Z.ltb_spec (day b) (month_length (year b) (month b))); [lia|].
        destruct (month b <? 12); [injection X as <-; reflexivity|].
        destruct (year b <? 9999); [injection X as <-; reflexivity|discriminate].
      * apply over_mul. discriminate.
    + apply next_day_None in X; [contradiction|assumption].
  - simpl. exists (over (numerator (year a) (year b) (month a) (month b) (if day a =? 31 then 30 else day a) (day b)) 360), b.
    split; [reflexivity|]. split; [assumption|]. split; [reflexivity|]. split; [intros K; contradiction|].
    apply over_mul. discriminate.
Qed.
Print Assumptions dc_thirty_e_plus.
Example dc_thirty_e_plus_case :
  day_count_factor Thirty_E_Plus_360 (Date 2023 1 15) (Date 2023 12 31) = Ret (over 346 360).
Proof. reflexivity. Qed.

(** 30U/360 moves any end-of-February end date to the 30th, also when the start
    date is not an end of February (where the US rule leaves it alone) *)
Theorem dc_thirty_u_february : forall a b, plain_day a -> day a <> 30 ->
  month b = 2 -> is_last_day_of_month b = true -> exists f,
  day_count_factor Thirty_U_360 a b = Ret f /\
  (f * 360 == inject_Z (360 * (year b - year a) + 30 * (2 - month a) + (30 - day a)))%Q.
Proof.
  intros a b Pa _ M L. eexists. split; [reflexivity|]. unfold dcf_30u.
  rewrite (plain_feb a Pa), (feb_last_eq b), M, L. destruct Pa as [Da _].
  destruct (Z.eqb_spec (day a) 31); [lia|]. cbn [orb andb Z.eqb Pos.eqb]. rewrite orb_true_r.
  apply over_mul. discriminate.
Qed.
Print Assumptions dc_thirty_u_february.
Example dc_thirty_u_february_case :
  day_count_factor Thirty_U_360 (Date 2023 1 15) (Date 2023 2 28) = Ret (over 45 360).
Proof. reflexivity. Qed.

(** 30U/360: exact adjustments, and where they are those of the US (SIFMA) rule, in which
    an end date on the last of February moves only together with such a start date *)
Theorem dc_thirty_u : forall a b, exists f, day_count_factor Thirty_U_360 a b = Ret f /\
  let feb d := (month d =? 2) && is_last_day_of_month d in
  let late := (day a =? 30) || (day a =? 31) || feb a in
  let d1 := if late then 30 else day a in
  let d2 := if feb b || ((day b =? 31) && late) then 30 else day b in
  (f * 360 == inject_Z (360 * (year b - year a) + 30 * (month b - month a) + (d2 - d1)))%Q.
Proof.
  intros a b. eexists. split; [reflexivity|]. cbv zeta. unfold dcf_30u. rewrite !feb_last_eq.
  destruct ((month a =? 2) && is_last_day_of_month a) eqn:F.
  - rewrite !orb_true_r. change (30 =? 30) with true. rewrite andb_true_r, orb_comm. apply over_mul. discriminate.
  - rewrite !orb_false_r. destruct (Z.eqb_spec (day a) 31) as [E|E].
    + rewrite orb_true_r. change (30 =? 30) with true. rewrite andb_true_r, orb_comm. apply over_mul. discriminate.
    + rewrite orb_false_r. destruct (Z.eqb_spec (day a) 30) as [->|N].
      * change (30 =? 30) with true. rewrite andb_true_r, orb_comm. apply over_mul. discriminate.
      * rewrite andb_false_r, orb_false_r, orb_false_l. apply over_mul. discriminate.
Qed.
Print Assumptions dc_thirty_u.
Definition us_thirty (a b : date) : Z :=
  let feb d := (month d =? 2) && is_last_day_of_month d in
  let d2 := if feb a && feb b then 30 else day b in
  let d1 := if feb a then 30 else day a in
  let d2 := if (d2 =? 31) && ((d1 =? 30) || (d1 =? 31)) then 30 else d2 in
  let d1 := if d1 =? 31 then 30 else d1 in
  360 * (year b - year a) + 30 * (month b - month a) + (d2 - d1).
Theorem dc_thirty_u_us : forall a b f, valid b -> day_count_factor Thirty_U_360 a b = Ret f ->
  ((f * 360 == inject_Z (us_thirty a b))%Q <->
   ~ (month b = 2 /\ is_last_day_of_month b = true /\ ~ (month a = 2 /\ is_last_day_of_month a = true))).
Proof.
  intros a b f V H. destruct (dc_thirty_u a b) as (g & G & E). rewrite H in G. injection G as <-. cbv zeta in E.
  rewrite E. clear E H. unfold us_thirty.
  assert (Fb : (month b =? 2) && is_last_day_of_month b = true -> day b <= 29).
  { intros X. apply andb_true_iff in X. destruct X as [X _]. apply Z.eqb_eq in X. destruct V as (_ & _ & V). rewrite X in V.
    unfold month_length in V. cbn [Z.eqb Pos.eqb orb] in V. destruct (is_leap (year b)); lia. }
  assert (R : month b = 2 /\ is_last_day_of_month b = true <-> (month b =? 2) && is_last_day_of_month b = true)
    by (rewrite andb_true_iff, Z.eqb_eq; tauto).
  assert (Q : month a = 2 /\ is_last_day_of_month a = true <-> (month a =? 2) && is_last_day_of_month a = true)
    by (rewrite andb_true_iff, Z.eqb_eq; tauto).
  rewrite <- (and_assoc (month b = 2)), R, Q. clear R Q.
  assert (I : forall x y, (inject_Z x == inject_Z y)%Q <-> x = y) by (intros x y; unfold Qeq; simpl; lia). rewrite I. clear I.
  destruct ((month b =? 2) && is_last_day_of_month b); destruct ((month a =? 2) && is_last_day_of_month a); cbn [andb orb];
    try specialize (Fb eq_refl);
    repeat match goal with |- context [?x =? ?y] => destruct (Z.eqb_spec x y); cbn [andb orb]; try lia end;
    try (split; [intros; intuition discriminate || lia|intros; lia || (exfalso; intuition)]);
    split; intros; try lia; try (exfalso; intuition congruence).
Qed.
Print Assumptions dc_thirty_u_us.
Example dc_thirty_u_case : day_count_factor Thirty_U_360 (Date 2024 1 31) (Date 2024 3 31) = Ret (over 60 360) /\
  us_thirty (Date 2023 1 15) (Date 2023 2 28) = 43 /\ us_thirty (Date 2024 2 29) (Date 2025 2 28) = 360.
Proof. repeat split; reflexivity. Qed.

(** ** C15 Actual/Actual ISDA *)

(** Every day contributes one over the length of its own year. *)
Fixpoint accrued (k : nat) (d : date) : Q :=
  match k with
  | O => 0
  | S k' => (1 / inject_Z (days_in_year (year d)) +
             match next_day d with Some d' => accrued k' d' | None => 0 end)%Q
  end.

Definition diyQ (y : Z) : Q := inject_Z (days_in_year y).
Lemma diy_nz y : ~ (diyQ y == 0)%Q.
Proof. unfold diyQ, days_in_year. destruct (is_leap y); discriminate. Qed.
(* position of a date in years *)
Definition Fpos (d : date) : Q := (inject_Z (year d) + inject_Z (ordinal d - 1) / diyQ (year d))%Q.

Lemma Fpos_next d d' : valid d -> next_day d = Some d' ->
  (Fpos d' == Fpos d + 1 / diyQ (year d))%Q.
Proof.
  intros V N. destruct (next_day_spec d d' V N) as [V' N'].
  pose proof (ordinal_range d V) as R. pose proof (ordinal_range d' V') as R'.
  unfold Fpos. destruct (Z.eq_dec (year d') (year d)) as [E|E].
  - assert (ordinal d' = ordinal d + 1) as O.
    { unfold daynum in N'. rewrite E in N'. lia. }
    rewrite E, O. replace (ordinal d + 1 - 1) with (ordinal d - 1 + 1) by ring. rewrite inject_Z_plus.
    pose proof (diy_nz (year d)). field. assumption.
  - assert (year d' = year d + 1 /\ ordinal d' = 1) as [Y O].
    { unfold next_day in N. destruct (day d <? month_length (year d) (month d)); [injection N as <-; simpl in E; congruence|].
      destruct (month d <? 12); [injection N as <-; simpl in E; congruence|].
      destruct (year d <? 9999); [|discriminate]. injection N as <-. split; reflexivity. }
    assert (ordinal d = days_in_year (year d)) as OD.
    { unfold daynum in N'. rewrite Y, O, before_year_step in N'. lia. }
    rewrite Y, O, OD, !inject_sub. fold (diyQ (year d)). rewrite inject_Z_plus.
    change (inject_Z (1 - 1)) with 0%Q. pose proof (diy_nz (year d)). pose proof (diy_nz (year d + 1)).
    change (inject_Z 1) with 1%Q. field. split; assumption.
Qed.

Lemma accrued_Fpos : forall k d e, valid d -> valid e -> daynum e = daynum d + Z.of_nat k ->
  (accrued k d == Fpos e - Fpos d)%Q.
Proof.
  induction k as [|k IH]; intros d e V Ve E.
  - assert (d = e) by (apply daynum_inj; try assumption; lia). subst. simpl. ring.
  - cbn [accrued]. destruct (next_day d) as [d'|] eqn:N.
    + destruct (next_day_spec d d' V N) as [V' N']. rewrite (IH d' e V' Ve) by lia.
      rewrite (Fpos_next d d' V N). unfold diyQ. ring.
    + apply next_day_None in N; [|assumption]. subst. pose proof (daynum_le_max e Ve). lia.
Qed.

Lemma isda_Fpos a b : valid a -> valid b -> year a < 9999 \/ a = b ->
  exists f, day_count_factor Actual_Actual_ISDA a b = Ret f /\ (f == Fpos b - Fpos a)%Q.
Proof.
  intros Va Vb Y. simpl. unfold dcf_isda.
  destruct (date_eqb a b) eqn:E.
  { apply date_eqb_eq in E. subst b. eexists. split; [reflexivity|]. ring. }
  assert (Y' : year a < 9999).
  { destruct Y as [Y|Y]; [assumption|]. apply date_eqb_eq in Y. congruence. }
  clear Y. assert (V1 : valid (Date (year a + 1) 1 1)).
  { destruct Va as (A & _). unfold valid. cbn [year month day].
    pose proof (month_length_range (year a + 1) 1). lia. }
  assert (V2 : valid (Date (year b) 1 1)).
  { destruct Vb as (A & _). unfold valid. cbn [year month day].
    pose proof (month_length_range (year b) 1). lia. }
  unfold from_ymd. rewrite (proj2 (validb_valid _) V1), (proj2 (validb_valid _) V2). cbn [unwrap bind].
  eexists. split; [reflexivity|].
  pose proof (ordinal_range a Va) as Ra. pose proof (ordinal_range b Vb) as Rb.
  assert (D1 : days_between a (Date (year a + 1) 1 1) = days_in_year (year a) - (ordinal a - 1)).
  { unfold days_between. rewrite first_of_month_num, before_month_first, before_year_step.
    unfold daynum. lia. }
  assert (D2 : days_between (Date (year b) 1 1) b = ordinal b - 1).
  { unfold days_between. rewrite first_of_month_num, before_month_first.
    unfold daynum. lia. }
  rewrite D1, D2. change (if is_leap (year a) then 366 else 365) with (days_in_year (year a)).
  change (if is_leap (year b) then 366 else 365) with (days_in_year (year b)).
  unfold over, Fpos. rewrite !inject_sub. fold (diyQ (year a)) (diyQ (year b)).
  pose proof (diy_nz (year a)). pose proof (diy_nz (year b)). change (inject_Z 1) with 1%Q. field. split; assumption.
Qed.

Theorem dc_isda_accrues : forall a b, valid a -> valid b -> date_leb a b = true ->
  year a < 9999 \/ a = b ->
  exists f, day_count_factor Actual_Actual_ISDA a b = Ret f /\
    (f == accrued (Z.to_nat (daynum b - daynum a)) a)%Q.
Proof.
  intros a b Va Vb L Y. apply daynum_le in L; try assumption.
  destruct (isda_Fpos a b Va Vb Y) as (f & Hf & F).
  exists f. split; [assumption|]. rewrite F. rewrite (accrued_Fpos _ a b); try assumption; [reflexivity|lia].
Qed.
Print Assumptions dc_isda_accrues.
Example dc_isda_accrues_case : exists f,
  day_count_factor Actual_Actual_ISDA (Date 2003 11 1) (Date 2004 5 1) = Ret f /\
  (f == 61 / 365 + 121 / 366)%Q.
Proof. eexists. split; reflexivity. Qed.

(** additive and antisymmetric for any three dates, in any order *)
Theorem dc_isda_additive : forall a m b f g h r, valid a -> valid m -> valid b ->
  day_count_factor Actual_Actual_ISDA a b = Ret f ->
  day_count_factor Actual_Actual_ISDA a m = Ret g ->
  day_count_factor Actual_Actual_ISDA m b = Ret h ->
  day_count_factor Actual_Actual_ISDA b a = Ret r ->
  (f == g + h)%Q /\ (r == - f)%Q.
Proof.
  assert (P : forall a b f, valid a -> valid b -> day_count_factor Actual_Actual_ISDA a b = Ret f ->
                (f == Fpos b - Fpos a)%Q).
  { intros a b f Va Vb H. destruct (Z_lt_le_dec (year a) 9999) as [Y|Y].
    - destruct (isda_Fpos a b Va Vb (or_introl Y)) as (f' & E & F). rewrite H in E. injection E as <-. exact F.
    - simpl in H. unfold dcf_isda in H. destruct (date_eqb a b) eqn:E.
      + apply date_eqb_eq in E. subst b. injection H as <-. ring.
      + pose proof Va as (Ya & _). replace (year a) with 9999 in H by lia. discriminate. }
  intros a m b f g h r Va Vm Vb Hf Hg Hh Hr.
  apply P in Hf, Hg, Hh, Hr; try assumption. rewrite Hf, Hg, Hh, Hr. split; ring.
Qed.
Print Assumptions dc_isda_additive.

Theorem dc_isda_whole_years : forall a b, valid a -> valid b ->
  year a < year b -> month a = 1 -> day a = 1 -> month b = 1 -> day b = 1 ->
  exists f, day_count_factor Actual_Actual_ISDA a b = Ret f /\ (f == inject_Z (year b - year a))%Q.
Proof.
  intros a b Va Vb Y Ma Da Mb Db.
  destruct (isda_Fpos a b) as (f & Hf & F); try assumption.
  - left. destruct Vb as (V & _). lia.
  - exists f. split; [assumption|]. rewrite F. unfold Fpos, ordinal. rewrite Ma, Da, Mb, Db, !before_month_first.
    change (0 + 1 - 1) with 0. change (inject_Z 0) with 0%Q. rewrite inject_sub.
    pose proof (diy_nz (year a)). pose proof (diy_nz (year b)). field. split; assumption.
Qed.
Print Assumptions dc_isda_whole_years.
Example dc_isda_whole_years_case : exists f,
  day_count_factor Actual_Actual_ISDA (Date 2003 1 1) (Date 2006 1 1) = Ret f /\ (f == 3)%Q.
Proof. eexists. split; reflexivity. Qed.

(** the last supported year panics *)
Theorem dc_isda_last_year_panics : forall a b, valid a -> year a = 9999 -> a <> b ->
  day_count_factor Actual_Actual_ISDA a b = Panic.
Proof.
  intros a b V Y N. simpl. unfold dcf_isda.
  destruct (date_eqb a b) eqn:E; [apply date_eqb_eq in E; contradiction|]. rewrite Y. reflexivity.
Qed.
Print Assumptions dc_isda_last_year_panics.

(** ** C15 conventions that depart from their description *)

(** a leap day in (start, end] *)
Definition leap_day_in (a b : date) : Prop :=
  exists e, valid e /\ month e = 2 /\ day e = 29 /\ daynum a < daynum e <= daynum b.

(** 365/366 is chosen by the calendar years touched ... *)
Theorem dc_365_leap_value : forall c a b, c = Actual_365_Actual \/ c = Actual_365_Leap ->
  exists f, day_count_factor c a b = Ret f /\
   ((exists y, year a <= y <= year b /\ is_leap y = true) ->
     (f * 366 == inject_Z (daynum b - daynum a))%Q) /\
   ((forall y, year a <= y <= year b -> is_leap y = false) ->
     (f * 365 == inject_Z (daynum b - daynum a))%Q).
Proof.
  intros c a b H. exists (dcf_365_leap a b). split; [destruct H as [-> | ->]; reflexivity|].
  unfold dcf_365_leap. destruct (contains_leap_year a b) eqn:E; split; intros K.
  - apply over_mul. discriminate.
  - unfold contains_leap_year in E. apply existsb_exists in E as (y & Hy & L).
    apply years_in_range_In in Hy. rewrite K in L by assumption. discriminate.
  - destruct K as (y & Hy & L). exfalso. assert (contains_leap_year a b = true); [|congruence].
    apply existsb_exists. exists y. split; [apply years_in_range_In; assumption|assumption].
  - apply over_mul. discriminate.
Qed.
Print Assumptions dc_365_leap_value.
(** ... not by whether a leap day is contained, as documented *)
Theorem dc_365_actual_refuted : exists a b f, valid a /\ valid b /\ date_ltb a b = true /\
  ~ leap_day_in a b /\ day_count_factor Actual_365_Actual a b = Ret f /\
  ~ (f * 365 == inject_Z (daynum b - daynum a))%Q.
Proof.
  exists (Date 2024 3 1), (Date 2024 3 31). eexists.
  split; [vm_compute; intuition discriminate|]. split; [vm_compute; intuition discriminate|].
  split; [reflexivity|]. split.
  - intros (e & Ve & M & D & L).
    destruct (same_month_between (Date 2024 3 1) (Date 2024 3 31) e) as [_ K];
      try assumption; try reflexivity; [vm_compute; intuition discriminate|vm_compute; intuition discriminate|lia|].
    simpl in K. congruence.
  - split; [reflexivity|]. vm_compute. discriminate.
Qed.
Print Assumptions dc_365_actual_refuted.

(** the no-leap conventions subtract one day per leap year touched, whether or
    not its leap day is inside the period *)
Theorem dc_no_leap_refuted : exists a b f, valid a /\ valid b /\ date_ltb a b = true /\
  ~ leap_day_in a b /\ day_count_factor No_Leap_365 a b = Ret f /\
  ~ (f * 365 == inject_Z (daynum b - daynum a))%Q.
Proof.
  exists (Date 2024 3 1), (Date 2024 3 31). eexists.
  split; [vm_compute; intuition discriminate|]. split; [vm_compute; intuition discriminate|].
  split; [reflexivity|]. split.
  - intros (e & Ve & M & D & L).
    destruct (same_month_between (Date 2024 3 1) (Date 2024 3 31) e) as [_ K];
      try assumption; try reflexivity; [vm_compute; intuition discriminate|vm_compute; intuition discriminate|lia|].
    simpl in K. congruence.
  - split; [reflexivity|]. vm_compute. discriminate.
Qed.
Print Assumptions dc_no_leap_refuted.
(** so the same date twice may give a negative fraction *)
Theorem dc_no_leap_same_date : forall a, is_leap (year a) = true -> exists f,
  day_count_factor No_Leap_360 a a = Ret f /\ (f * 360 == -1)%Q.
Proof.
  intros a L. eexists. split; [reflexivity|]. unfold dcf_nl. rewrite over_mul by discriminate.
  unfold whole_days. rewrite Z.sub_diag. unfold leap_year_count, years_in_range.
  replace (Z.to_nat (year a - year a + 1)) with 1%nat by lia. simpl. rewrite Z.add_0_r, L. reflexivity.
Qed.
Print Assumptions dc_no_leap_same_date.
Example dc_no_leap_same_date_case : is_leap (year (Date 2024 3 1)) = true. Proof. reflexivity. Qed.

(** Actual/Actual AFB panics for an end on February 29th unless the start year
    is a leap year, and a whole number of years is not counted as such *)
Theorem dc_afb_panics : forall a b, month b = 2 -> day b = 29 -> is_leap (year a) = false ->
  day_count_factor Actual_Actual_AFB a b = Panic.
Proof.
  intros a b M D L. simpl. unfold dcf_afb, from_ymd, validb. rewrite M, D. cbn [year month day].
  unfold month_length. rewrite L. change (29 <=? (if 2 =? 2 then 28 else _)) with false.
  rewrite andb_false_r. reflexivity.
Qed.
Print Assumptions dc_afb_panics.
Example dc_afb_panics_case : valid (Date 2024 2 29) /\ is_leap (year (Date 2023 5 1)) = false.
Proof. split; [vm_compute; intuition discriminate|reflexivity]. Qed.
Theorem dc_afb_whole_years_refuted : exists a b f, valid a /\ valid b /\
  month a = month b /\ day a = day b /\ year b = year a + 10 /\
  day_count_factor Actual_Actual_AFB a b = Ret f /\ ~ (f == 10)%Q.
Proof.
  exists (Date 2023 3 1), (Date 2033 3 1). eexists.
  split; [vm_compute; intuition discriminate|]. split; [vm_compute; intuition discriminate|].
  split; [reflexivity|]. split; [reflexivity|]. split; [reflexivity|]. split; [reflexivity|]. vm_compute. discriminate.
Qed.
Print Assumptions dc_afb_whole_years_refuted.

(** Actual/Actual ICMA is unimplemented: it panics on every input *)
Theorem dc_icma_panics : forall a b, day_count_factor Actual_Actual_ICMA a b = Panic.
Proof. reflexivity. Qed.
Print Assumptions dc_icma_panics.

(** every other convention is total away from the last year and AFB *)
Theorem dc_total : forall c a b, valid a -> valid b -> year a < 9999 -> b <> date_max ->
  c <> Actual_Actual_ICMA -> c <> Actual_Actual_AFB ->
  exists f, day_count_factor c a b = Ret f.
Proof.
  intros c a b Va Vb Y M N1 N2. destruct c; try (eexists; reflexivity); try contradiction.
  - destruct (isda_Fpos a b Va Vb (or_introl Y)) as (f & H & _). exists f. assumption.
  - destruct (proj2 (dc_thirty_e_plus a b Vb) M) as (f & _ & H & _). exists f. assumption.
Qed.
Print Assumptions dc_total.

(** ** C16 Easter *)

(** Spec: ecclesiastical Easter. The paschal full moon, as a day number, from
    the golden number and (Gregorian) epact; Easter Sunday is the first Sunday
    strictly after it. March 1st is day 1 of the scale below. *)
Definition gregorian_moon (y : Z) : Z :=
  let g := y mod 19 + 1 in
  let c := y / 100 + 1 in
  let x := 3 * c / 4 - 12 in
  let z := (8 * c + 5) / 25 - 5 in
  let e0 := (11 * g + 20 + z - x) mod 30 in
  let e := if ((e0 =? 25) && (11 <? g)) || (e0 =? 24) then e0 + 1 else e0 in
  let n := if 44 - e <? 21 then 44 - e + 30 else 44 - e in
  daynum (Date y 3 1) + (n - 1).
(** the Julian calendar: every fourth year is leap, and Julian 0001-01-01 is
    two days before 0001-01-01 *)
Definition julian_march_1 (y : Z) : Z :=
  365 * (y - 1) + (y - 1) / 4 - 2 + 31 + (if y mod 4 =? 0 then 29 else 28) + 1.
Definition julian_moon (y : Z) : Z := julian_march_1 y + 20 + (19 * (y mod 19) + 15) mod 30.

Definition is_easter_sunday (orthodox : bool) (y s : Z) : Prop :=
  let moon := if orthodox then julian_moon y else gregorian_moon y in
  moon < s /\ (s - 1) mod 7 = 6 /\ forall t, moon < t < s -> (t - 1) mod 7 <> 6.

(** first Sunday after [m] *)
Definition sunday_after (m : Z) : Z := m + 7 - (m mod 7).
Lemma sunday_after_spec m : m < sunday_after m /\ (sunday_after m - 1) mod 7 = 6 /\
  forall t, m < t < sunday_after m -> (t - 1) mod 7 <> 6.
Proof.
  unfold sunday_after. pose proof (Z.mod_pos_bound m 7 ltac:(lia)). split; [lia|]. split.
  - Z.div_mod_to_equations. lia.
  - intros t Ht. Z.div_mod_to_equations. lia.
Qed.

Definition easter_ok (orthodox : bool) (y : Z) : bool :=
  match easter_monday y orthodox with
  | Some k => before_year y + k =? sunday_after (if orthodox then julian_moon y else gregorian_moon y) + 1
  | None => false
  end.

Lemma easter_all : forall o, forallb (fun k => easter_ok o (1901 + Z.of_nat k)) (seq 0 299) = true.
Proof. intros []; vm_compute; reflexivity. Qed.

(** The stored day of the year is the day after Easter Sunday, for each of the
    299 years and both tables. *)
Theorem easter_table_exact : forall o y, 1901 <= y <= 2199 ->
  exists k s, easter_monday y o = Some k /\ is_easter_sunday o y s /\ before_year y + k = s + 1.
Proof.
  intros o y H. pose proof (easter_all o) as A. rewrite forallb_forall in A.
  specialize (A (Z.to_nat (y - 1901))). rewrite in_seq in A. specialize (A ltac:(lia)).
  replace (1901 + Z.of_nat (Z.to_nat (y - 1901))) with y in A by lia. unfold easter_ok in A.
  destruct (easter_monday y o) as [k|]; [|discriminate]. apply Z.eqb_eq in A.
  exists k, (sunday_after (if o then julian_moon y else gregorian_moon y)).
  split; [reflexivity|]. split; [|assumption]. apply sunday_after_spec.
Qed.
Print Assumptions easter_table_exact.
Example easter_table_case : easter_monday 2024 false = Some (ordinal (Date 2024 4 1)) /\
  easter_monday 2024 true = Some (ordinal (Date 2024 5 6)).
Proof. split; reflexivity. Qed.

(** so it is a real date, and a Monday *)
Theorem easter_is_monday : forall o y k, easter_monday y o = Some k ->
  exists d, valid d /\ year d = y /\ ordinal d = k /\ weekday d = 0.
Proof.
  intros o y k H.
  assert (R : 1901 <= y <= 2199).
  { unfold easter_monday in H. destruct (Z.ltb_spec y 1901); [discriminate|].
    assert (Z.to_nat (y - 1901) < 299)%nat; [|lia].
    assert (nth_error (if o then orthodox_mondays else western_mondays) (Z.to_nat (y - 1901)) <> None) as N by congruence.
    apply nth_error_Some in N. destruct o; exact N. }
  destruct (easter_table_exact o y R) as (k' & s & E & (_ & W & _) & B). rewrite H in E. injection E as <-.
  assert (K : forall k, In k (if o then orthodox_mondays else western_mondays) -> 1 <= k <= 365).
  { assert (F : forallb (fun k => (1 <=? k) && (k <=? 365)) (if o then orthodox_mondays else western_mondays) = true)
      by (destruct o; vm_compute; reflexivity).
    rewrite forallb_forall in F. intros j Hj. apply F in Hj. apply andb_true_iff in Hj as [A C].
    apply Z.leb_le in A, C. lia. }
  assert (Kr : 1 <= k <= 365).
  { apply K. unfold easter_monday in H. destruct (y <? 1901); [discriminate|]. eapply nth_error_In; eassumption. }
  assert (V1 : valid (Date y 1 1)) by (unfold valid; cbn [year month day]; pose proof (month_length_range y 1); lia).
  assert (V2 : valid (Date y 12 31)).
  { unfold valid. cbn [year month day]. split; [lia|]. split; [lia|]. vm_compute. intuition discriminate. }
  assert (N1 : daynum (Date y 1 1) = before_year y + 1) by (rewrite first_of_month_num, before_month_first; lia).
  assert (N2 : daynum (Date y 12 31) = before_year y + days_in_year y).
  { unfold daynum, ordinal. cbn [year month day]. rewrite before_month_last. lia. }
  assert (D : 365 <= days_in_year y) by (unfold days_in_year; destruct (is_leap y); lia).
  destruct (date_of_num (before_year y + k)) as (d & Vd & Nd).
  { pose proof (daynum_le_max _ V2). pose proof (daynum_ge_min _ V1). lia. }
  assert (Yd : year d = y).
  { assert (L1 : date_leb (Date y 1 1) d = true) by (apply daynum_le; try assumption; lia).
    assert (L2 : date_leb d (Date y 12 31) = true) by (apply daynum_le; try assumption; lia).
    unfold date_leb, date_ltb in L1, L2. apply negb_true_iff, orb_false_iff in L1 as [L1 _], L2 as [L2 _].
    apply Z.ltb_ge in L1, L2. cbn [year] in L1, L2. lia. }
  exists d. split; [assumption|]. split; [assumption|]. split.
  - unfold daynum in Nd. rewrite Yd in Nd. lia.
  - unfold weekday. rewrite Nd, B. clear - W. Z.div_mod_to_equations. lia.
Qed.
Print Assumptions easter_is_monday.

(** and no other year is supported *)
Theorem easter_table_range : forall o y, easter_monday y o = None <-> y < 1901 \/ 2199 < y.
Proof.
  intros o y. split.
  - intros H. destruct (Z_lt_le_dec y 1901); [left; assumption|]. right.
    destruct (Z_lt_le_dec 2199 y); [assumption|]. destruct (easter_table_exact o y) as (k & _ & E & _); [lia|congruence].
  - intros [H|H]; unfold easter_monday; destruct (Z.ltb_spec y 1901); try reflexivity; try lia.
    apply nth_error_None. assert (length (if o then orthodox_mondays else western_mondays) = 299)%nat as -> by (destruct o; reflexivity).
    lia.
Qed.
Print Assumptions easter_table_range.

(** ** C54 frequencies *)

Theorem freq_infer_exact : forall a b f, infer_frequency a b = Ret f <->
  let n := daynum b - daynum a in
  match f with
  | Daily => n = 1 | Weekly => n = 7 | BiWeekly => n = 14 | SemiMonthly => n = 15
  | Monthly => 28 <= n <= 31 | SemiQuarterly => 45 <= n <= 46 | Quarterly => 91 <= n <= 92
  | TriAnnually => 121 <= n <= 122 | SemiAnnually => 182 <= n <= 183 | Annually => 365 <= n <= 366
  | FZero => False end.
Proof.
  intros a b f. unfold infer_frequency, whole_days. cbv zeta. set (n := daynum b - daynum a). clearbody n.
  repeat match goal with |- context [if ?x then _ else _] =>
    destruct x eqn:?; [destruct f; split; intros; try discriminate; try reflexivity; lia|] end.
  destruct f; split; intros; try discriminate; lia.
Qed.
Print Assumptions freq_infer_exact.
Example freq_infer_case : infer_frequency (Date 2023 4 1) (Date 2023 7 1) = Ret Quarterly.
Proof. reflexivity. Qed.

(** dates one month or one year apart are recognised *)
Theorem freq_month_year : forall a b, valid a -> valid b -> day a = day b ->
  (year a = year b /\ month b = month a + 1 \/ year b = year a + 1 /\ month a = 12 /\ month b = 1 ->
   infer_frequency a b = Ret Monthly) /\
  (year b = year a + 1 -> month a = month b -> infer_frequency a b = Ret Annually).
Proof.
  intros a b Va Vb D. destruct a as [ya ma da], b as [yb mb db]. cbn [year month day] in *. subst db.
  destruct Va as (A1 & A2 & A3), Vb as (B1 & B2 & B3). cbn [year month day] in *.
  split.
  - intros H. apply freq_infer_exact. cbv zeta. unfold daynum, ordinal. cbn [year month day].
    destruct H as [[<- ->]|(-> & -> & ->)].
    + rewrite before_month_step by lia. pose proof (month_length_range ya ma). lia.
    + rewrite before_year_step, before_month_first. pose proof (before_month_last ya). lia.
  - intros -> <-. apply freq_infer_exact. cbv zeta. unfold daynum, ordinal. cbn [year month day].
    rewrite before_year_step.
    assert (before_month (ya + 1) ma - before_month ya ma + days_in_year ya = 365 \/
            before_month (ya + 1) ma - before_month ya ma + days_in_year ya = 366); [|lia].
    unfold before_month, days_in_year.
    assert (L : is_leap ya = true -> is_leap (ya + 1) = false).
    { unfold is_leap. intros L. apply andb_true_iff in L as [L _]. apply Z.eqb_eq in L.
      destruct (Z.eqb_spec ((ya + 1) mod 4) 0); [|reflexivity]. exfalso. Z.div_mod_to_equations. lia. }
    destruct (is_leap ya); [rewrite (L eq_refl)|destruct (is_leap (ya + 1))]; destruct (2 <? ma); cbn [andb]; lia.
Qed.
Print Assumptions freq_month_year.
Example freq_month_year_case :
  infer_frequency (Date 2024 1 28) (Date 2024 2 28) = Ret Monthly /\
  infer_frequency (Date 2023 2 28) (Date 2024 2 28) = Ret Annually.
Proof. split; reflexivity. Qed.

(** but quarters and half-years are not: exactly three (six) months may panic *)
Theorem freq_quarter_refuted : exists a b, valid a /\ valid b /\ year a = year b /\
  month b = month a + 3 /\ day a = day b /\ infer_frequency a b = Panic.
Proof.
  exists (Date 2023 1 1), (Date 2023 4 1). split; [vm_compute; intuition discriminate|].
  split; [vm_compute; intuition discriminate|]. repeat split.
Qed.
Print Assumptions freq_quarter_refuted.
Theorem freq_half_year_refuted : exists a b, valid a /\ valid b /\ year a = year b /\
  month b = month a + 6 /\ day a = day b /\ infer_frequency a b = Panic.
Proof.
  exists (Date 2023 1 1), (Date 2023 7 1). split; [vm_compute; intuition discriminate|].
  split; [vm_compute; intuition discriminate|]. repeat split.
Qed.
Print Assumptions freq_half_year_refuted.
(** the documented count of semi-quarterly periods per year, 8, is stored as 6 *)
Theorem freq_semi_quarterly_refuted : per_year SemiQuarterly <> 8 /\ per_year SemiQuarterly = 6.
Proof. split; [discriminate|reflexivity]. Qed.
Print Assumptions freq_semi_quarterly_refuted.

(** ** C55 schedules *)

Lemma Forall2_len {A B} (R : A -> B -> Prop) l1 l2 : Forall2 R l1 l2 -> length l1 = length l2.
Proof. induction 1; simpl; congruence. Qed.

(** A schedule holds the rolled dates and, for each of them, the factor from
    the previous one ([today] for the first). *)
Theorem schedule_aligned : forall cal today ds r c s,
  generate_schedule cal today ds r c = Ret s ->
  ds <> [] /\ length (sch_dates s) = length ds /\ length (sch_factors s) = length ds /\
  Forall2 (fun d x => roll_date cal d r = Ret x) ds (sch_dates s) /\
  Forall2 (fun p f => day_count_factor c (fst p) (snd p) = Ret f)
          (combine (today :: sch_dates s) (sch_dates s)) (sch_factors s).
Proof.
  intros cal today ds r c s H. unfold generate_schedule in H.
  apply bind_Ret_inv in H as (rolled & Hr & H). apply bind_Ret_inv in H as (fs & Hf & H).
  apply bind_Ret_inv in H as (x & Hx & H). apply bind_Ret_inv in H as (f0 & Hf0 & H).
  injection H as <-. cbn [sch_dates sch_factors].
  assert (R : forall ds rs, roll_dates cal ds r = Ret rs -> Forall2 (fun d x => roll_date cal d r = Ret x) ds rs).
  { clear. induction ds as [|d ds IH]; intros rs H; simpl in H.
    - injection H as <-. constructor.
    - apply bind_Ret_inv in H as (x & Hx & H). apply bind_Ret_inv in H as (xs & Hxs & H).
      injection H as <-. constructor; [assumption|]. apply IH; assumption. }
  apply R in Hr. destruct rolled as [|y rolled]; [discriminate|]. injection Hx as ->.
  assert (W : forall l fs, sequence (windows (day_count_factor c) l) = Ret fs ->
            Forall2 (fun p f => day_count_factor c (fst p) (snd p) = Ret f) (combine l (tl l)) fs).
  { clear. induction l as [|a l IH]; intros fs H; [injection H as <-; constructor|].
    destruct l as [|b l]; [injection H as <-; constructor|].
    change (windows (day_count_factor c) (a :: b :: l))
      with (day_count_factor c a b :: windows (day_count_factor c) (b :: l)) in H.
    cbn [sequence] in H. apply bind_Ret_inv in H as (u & Hu & H). apply bind_Ret_inv in H as (us & Hus & H).
    injection H as <-. change (combine (a :: b :: l) (tl (a :: b :: l))) with ((a, b) :: combine (b :: l) (tl (b :: l))).
    constructor; [assumption|]. apply IH; assumption. }
  apply W in Hf.
  assert (Ld : length (x :: rolled) = length ds) by (symmetry; eapply Forall2_len; eassumption).
  split; [intros ->; discriminate|]. split; [assumption|].
  assert (F : Forall2 (fun p f => day_count_factor c (fst p) (snd p) = Ret f)
          (combine (today :: x :: rolled) (x :: rolled)) (f0 :: fs)).
  { cbn [combine]. constructor; [assumption|]. exact Hf. }
  split; [|split; assumption].
  apply Forall2_len in F. rewrite combine_length in F. rewrite <- F, <- Ld. cbn [length]. lia.
Qed.
Print Assumptions schedule_aligned.
Example schedule_aligned_case : exists s,
  generate_schedule (calendar_new false (fun _ => Some false)) (Date 2023 1 2) [Date 2023 7 1; Date 2024 1 1]
    ModifiedFollowing Actual_365_Fixed = Ret s /\ sch_dates s = [Date 2023 7 3; Date 2024 1 1].
Proof. eexists. split; reflexivity. Qed.
(** an empty list of dates panics *)
Theorem schedule_empty_panics : forall cal today r c, generate_schedule cal today [] r c = Panic.
Proof. reflexivity. Qed.
Print Assumptions schedule_empty_panics.

(** The number of periods per year fits the length of the period it is inferred
    from: that many periods make a year up to the 29 days that twelve months of 28
    days lack; the exceptions are business days (252 a year) and the wrong 6. *)
Theorem freq_per_year_fits : forall a b f, infer_frequency a b = Ret f -> f <> Daily -> f <> SemiQuarterly ->
  336 <= (daynum b - daynum a) * per_year f <= 372.
Proof.
  intros a b f H N1 N2. apply freq_infer_exact in H. cbv zeta in H. destruct f; cbn [per_year]; try congruence; lia.
Qed.
Print Assumptions freq_per_year_fits.
Theorem freq_per_year_daily : per_year Daily = 252 /\ per_year FZero = 0 /\ forall a b, infer_frequency a b = Ret SemiQuarterly -> 360 <= (daynum b - daynum a) * 8 <= 368.
Proof. split; [reflexivity|]. split; [reflexivity|]. intros a b H. apply freq_infer_exact in H. cbv zeta in H. lia. Qed.
Print Assumptions freq_per_year_daily.
