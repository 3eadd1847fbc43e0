(** Proofs about the calendar model. *)
From Coq Require Import ZArith List Bool Lia Sorted FinFun.
From Verif Require Import Res DateModel CalModel.
Import ListNotations.
Open Scope Z_scope.

(** a calendar answers [b] for the date [d] *)
Definition business (c : calendar) (d : date) : Prop := is_business_day c d = Ret true.
Definition closed (c : calendar) (d : date) : Prop := is_business_day c d = Ret false.

(** ** Rolling forwards *)

Lemma is_business_day_fuel c d : is_business_day c d <> NoFuel.
Proof.
  unfold is_business_day, is_holiday. destruct (is_weekend c d); [discriminate|].
  destruct (is_extra c d); [discriminate|]. destruct (market_holiday c d); discriminate.
Qed.

Lemma next_bd_loop_fuel c : forall fuel d, valid d ->
  (Z.to_nat (daynum date_max - daynum d) < fuel)%nat -> next_bd_loop fuel c d <> NoFuel.
Proof.
  induction fuel as [|f IH]; intros d V H; [lia|]. simpl.
  pose proof (is_business_day_fuel c d) as NF.
  destruct (is_business_day c d) as [b| |]; simpl; try discriminate; [|congruence].
  destruct b; [discriminate|].
  destruct (next_day d) as [d'|] eqn:N; simpl; [|discriminate].
  destruct (next_day_spec d d' V N) as [V' N']. apply IH; [assumption|].
  pose proof (daynum_le_max d' V'). lia.
Qed.

Lemma prev_bd_loop_fuel c : forall fuel d, valid d ->
  (Z.to_nat (daynum d - daynum date_min) < fuel)%nat -> prev_bd_loop fuel c d <> NoFuel.
Proof.
  induction fuel as [|f IH]; intros d V H; [lia|]. simpl.
  pose proof (is_business_day_fuel c d) as NF.
  destruct (is_business_day c d) as [b| |]; simpl; try discriminate; [|congruence].
  destruct b; [discriminate|].
  destruct (previous_day d) as [d'|] eqn:N; simpl; [|discriminate].
  destruct (previous_day_spec d d' V N) as [V' N']. apply IH; [assumption|].
  pose proof (daynum_ge_min d' V'). lia.
Qed.

Lemma next_bd_loop_Ret c : forall fuel d r, valid d ->
  next_bd_loop fuel c d = Ret r ->
  valid r /\ business c r /\ daynum d <= daynum r /\
  forall e, valid e -> daynum d <= daynum e < daynum r -> closed c e.
Proof.
  induction fuel as [|f IH]; intros d r V H; [discriminate|]. simpl in H.
  apply bind_Ret_inv in H as (b & E & H). destruct b.
  - injection H as <-. repeat split; try apply V; try assumption; try lia.
  - destruct (next_day d) as [d'|] eqn:N; simpl in H; [|discriminate].
    destruct (next_day_spec d d' V N) as [V' N'].
    destruct (IH d' r V' H) as (Vr & Br & Lr & Cr). split; [assumption|]. split; [assumption|].
    split; [lia|]. intros e Ve He. destruct (Z.eq_dec (daynum e) (daynum d)) as [Q|Q].
    + apply daynum_inj in Q; try assumption. subst. exact E.
    + apply Cr; [assumption|lia].
Qed.

Lemma next_bd_loop_found c : forall fuel d r, valid d -> valid r -> daynum d <= daynum r ->
  (Z.to_nat (daynum r - daynum d) < fuel)%nat ->
  business c r -> (forall e, valid e -> daynum d <= daynum e < daynum r -> closed c e) ->
  next_bd_loop fuel c d = Ret r.
Proof.
  induction fuel as [|f IH]; intros d r V Vr L F B C; [lia|]. simpl.
  destruct (Z.eq_dec (daynum d) (daynum r)) as [Q|Q].
  - apply daynum_inj in Q; try assumption. subst. unfold business in B. rewrite B. reflexivity.
  - assert (Cd : closed c d) by (apply C; [assumption|lia]).
    unfold closed in Cd. rewrite Cd. simpl.
    destruct (next_day d) as [d'|] eqn:N.
    + destruct (next_day_spec d d' V N) as [V' N']. simpl. apply IH; try assumption; try lia.
      intros e Ve He. apply C; [assumption|lia].
    + apply next_day_None in N; [|assumption]. subst. pose proof (daynum_le_max r Vr). lia.
Qed.

Lemma next_bd_loop_none c : forall fuel d, valid d ->
  (Z.to_nat (daynum date_max - daynum d) < fuel)%nat ->
  (forall e, valid e -> daynum d <= daynum e -> closed c e) ->
  next_bd_loop fuel c d = Panic.
Proof.
  induction fuel as [|f IH]; intros d V F C; [lia|]. simpl.
  assert (Cd : closed c d) by (apply C; [assumption|lia]). unfold closed in Cd. rewrite Cd. simpl.
  destruct (next_day d) as [d'|] eqn:N; [|reflexivity]. simpl.
  destruct (next_day_spec d d' V N) as [V' N']. pose proof (daynum_le_max d' V').
  apply IH; [assumption|lia|]. intros e Ve He. apply C; [assumption|lia].
Qed.

Lemma next_business_day_Ret c d r : valid d -> next_business_day c d = Ret r ->
  valid r /\ business c r /\ daynum d <= daynum r /\
  forall e, valid e -> daynum d <= daynum e < daynum r -> closed c e.
Proof. intros V H. eapply next_bd_loop_Ret; eassumption. Qed.

Lemma next_business_day_found c d r : valid d -> valid r -> daynum d <= daynum r ->
  business c r -> (forall e, valid e -> daynum d <= daynum e < daynum r -> closed c e) ->
  next_business_day c d = Ret r.
Proof.
  intros. apply next_bd_loop_found; try assumption. pose proof (daynum_le_max r ltac:(assumption)). lia.
Qed.

(** ** Rolling backwards *)

Lemma prev_bd_loop_Ret c : forall fuel d r, valid d ->
  prev_bd_loop fuel c d = Ret r ->
  valid r /\ business c r /\ daynum r <= daynum d /\
  forall e, valid e -> daynum r < daynum e <= daynum d -> closed c e.
Proof.
  induction fuel as [|f IH]; intros d r V H; [discriminate|]. simpl in H.
  apply bind_Ret_inv in H as (b & E & H). destruct b.
  - injection H as <-. repeat split; try apply V; try assumption; try lia.
  - destruct (previous_day d) as [d'|] eqn:N; simpl in H; [|discriminate].
    destruct (previous_day_spec d d' V N) as [V' N'].
    destruct (IH d' r V' H) as (Vr & Br & Lr & Cr). split; [assumption|]. split; [assumption|].
    split; [lia|]. intros e Ve He. destruct (Z.eq_dec (daynum e) (daynum d)) as [Q|Q].
    + apply daynum_inj in Q; try assumption. subst. exact E.
    + apply Cr; [assumption|lia].
Qed.

Lemma prev_bd_loop_found c : forall fuel d r, valid d -> valid r -> daynum r <= daynum d ->
  (Z.to_nat (daynum d - daynum r) < fuel)%nat ->
  business c r -> (forall e, valid e -> daynum r < daynum e <= daynum d -> closed c e) ->
  prev_bd_loop fuel c d = Ret r.
Proof.
  induction fuel as [|f IH]; intros d r V Vr L F B C; [lia|]. simpl.
  destruct (Z.eq_dec (daynum d) (daynum r)) as [Q|Q].
  - apply daynum_inj in Q; try assumption. subst. unfold business in B. rewrite B. reflexivity.
  - assert (Cd : closed c d) by (apply C; [assumption|lia]).
    unfold closed in Cd. rewrite Cd. simpl.
    destruct (previous_day d) as [d'|] eqn:N.
    + destruct (previous_day_spec d d' V N) as [V' N']. simpl. apply IH; try assumption; try lia.
      intros e Ve He. apply C; [assumption|lia].
    + apply previous_day_None in N; [|assumption]. subst. pose proof (daynum_ge_min r Vr). lia.
Qed.

Lemma prev_bd_loop_none c : forall fuel d, valid d ->
  (Z.to_nat (daynum d - daynum date_min) < fuel)%nat ->
  (forall e, valid e -> daynum e <= daynum d -> closed c e) ->
  prev_bd_loop fuel c d = Panic.
Proof.
  induction fuel as [|f IH]; intros d V F C; [lia|]. simpl.
  assert (Cd : closed c d) by (apply C; [assumption|lia]). unfold closed in Cd. rewrite Cd. simpl.
  destruct (previous_day d) as [d'|] eqn:N; [|reflexivity]. simpl.
  destruct (previous_day_spec d d' V N) as [V' N']. pose proof (daynum_ge_min d' V').
  apply IH; [assumption|lia|]. intros e Ve He. apply C; [assumption|lia].
Qed.

Lemma previous_business_day_Ret c d r : valid d -> previous_business_day c d = Ret r ->
  valid r /\ business c r /\ daynum r <= daynum d /\
  forall e, valid e -> daynum r < daynum e <= daynum d -> closed c e.
Proof. intros V H. eapply prev_bd_loop_Ret; eassumption. Qed.

Lemma previous_business_day_found c d r : valid d -> valid r -> daynum r <= daynum d ->
  business c r -> (forall e, valid e -> daynum r < daynum e <= daynum d -> closed c e) ->
  previous_business_day c d = Ret r.
Proof.
  intros. apply prev_bd_loop_found; try assumption. pose proof (daynum_ge_min r ltac:(assumption)). lia.
Qed.

(** ** Modified conventions *)

Lemma modified_following_month c d r e : valid d ->
  roll_modified_following c d = Ret r ->
  valid e -> business c e -> year e = year d -> month e = month d ->
  month r = month d.
Proof.
  intros V H Ve Be Ey Em. unfold roll_modified_following in H.
  apply bind_Ret_inv in H as (n & Hn & H).
  destruct (next_business_day_Ret c d n V Hn) as (Vn & Bn & Ln & Cn).
  destruct (Z.eqb_spec (month n) (month d)) as [Q|Q]; [injection H as <-; assumption|].
  destruct (previous_business_day_Ret c d r V H) as (Vr & Br & Lr & Cr).
  destruct (Z_lt_le_dec (daynum e) (daynum d)) as [L|L].
  - assert (daynum e <= daynum r).
    { destruct (Z_lt_le_dec (daynum r) (daynum e)) as [L2|L2]; [|assumption].
      specialize (Cr e Ve ltac:(lia)). unfold business in Be. unfold closed in Cr. congruence. }
    destruct (same_month_between e d r) as [_ M]; try assumption; try lia.
  - assert (daynum n <= daynum e).
    { destruct (Z_lt_le_dec (daynum e) (daynum n)) as [L2|L2]; [|assumption].
      specialize (Cn e Ve ltac:(lia)). unfold business in Be. unfold closed in Cn. congruence. }
    destruct (same_month_between d e n) as [_ M]; try assumption; try lia; try congruence.
Qed.

Lemma modified_preceding_month c d r e : valid d ->
  roll_modified_preceding c d = Ret r ->
  valid e -> business c e -> year e = year d -> month e = month d ->
  month r = month d.
Proof.
  intros V H Ve Be Ey Em. unfold roll_modified_preceding in H.
  apply bind_Ret_inv in H as (n & Hn & H).
  destruct (previous_business_day_Ret c d n V Hn) as (Vn & Bn & Ln & Cn).
  destruct (Z.eqb_spec (month n) (month d)) as [Q|Q]; [injection H as <-; assumption|].
  destruct (next_business_day_Ret c d r V H) as (Vr & Br & Lr & Cr).
  destruct (Z_lt_le_dec (daynum d) (daynum e)) as [L|L].
  - assert (daynum r <= daynum e).
    { destruct (Z_lt_le_dec (daynum e) (daynum r)) as [L2|L2]; [|assumption].
      specialize (Cr e Ve ltac:(lia)). unfold business in Be. unfold closed in Cr. congruence. }
    destruct (same_month_between d e r) as [_ M]; try assumption; try lia; try congruence.
  - assert (daynum e <= daynum n).
    { destruct (Z_lt_le_dec (daynum n) (daynum e)) as [L2|L2]; [|assumption].
      specialize (Cn e Ve ltac:(lia)). unfold business in Be. unfold closed in Cn. congruence. }
    destruct (same_month_between e d n) as [_ M]; try assumption; try lia; try congruence.
Qed.

(** ** Counting *)

Lemma bd_count_loop_spec c d2 : valid d2 -> daynum d2 < daynum date_max ->
  forall fuel t n, valid t ->
  (Z.to_nat (daynum d2 - daynum t) + 2 <= fuel)%nat ->
  (forall e, valid e -> daynum t <= daynum e <= daynum d2 -> business c e \/ closed c e) ->
  exists l, bd_count_loop fuel c t d2 n = Ret (n + Z.of_nat (length l)) /\ NoDup l /\
    forall e, In e l <-> valid e /\ daynum t <= daynum e <= daynum d2 /\ business c e.
Proof.
  intros V2 Hmax fuel. induction fuel as [|f IH]; intros t n Vt F D; [lia|]. simpl.
  destruct (date_leb t d2) eqn:L.
  - apply daynum_le in L; try assumption.
    destruct (next_day t) as [t'|] eqn:N.
    2:{ apply next_day_None in N; [|assumption]. subst. lia. }
    destruct (next_day_spec t t' Vt N) as [V' N'].
    destruct (D t Vt ltac:(lia)) as [B|B].
    + pose proof B as B'. unfold business in B'. rewrite B'. simpl.
      destruct (Z_lt_le_dec (daynum t) (daynum d2)) as [L2|L2].
      * destruct (IH t' (n + 1) V') as (l & E & ND & Hl); [lia|intros e Ve He; apply D; [assumption|lia]|].
        exists (t :: l). split; [|split].
        -- rewrite E. f_equal. rewrite (eq_refl : length (t :: l) = S (length l)). lia.
        -- constructor; [|assumption]. intros Hin. apply Hl in Hin. lia.
        -- intros e. simpl. rewrite Hl. split.
           ++ intros [<-|(Ve & R & Be)]; [repeat split; try apply Vt; try lia; assumption|].
              split; [assumption|]. split; [lia|assumption].
           ++ intros (Ve & R & Be). destruct (Z.eq_dec (daynum e) (daynum t)) as [Q|Q].
              ** left. symmetry. apply daynum_inj; assumption.
              ** right. split; [assumption|]. split; [lia|assumption].
      * (* last day *)
        assert (t = d2) by (apply daynum_inj; try assumption; lia). subst d2.
        destruct f as [|f]; [lia|]. simpl.
        destruct (date_leb t' t) eqn:L3; [apply daynum_le in L3; try assumption; lia|].
        exists [t]. split; [reflexivity|]. split; [repeat constructor; intros []|].
        intros e. simpl. split.
        -- intros [<-|[]]. repeat split; try apply Vt; try lia; assumption.
        -- intros (Ve & R & Be). left. apply daynum_inj; try assumption. lia.
    + pose proof B as B'. unfold closed in B'. rewrite B'. simpl.
      destruct (Z_lt_le_dec (daynum t) (daynum d2)) as [L2|L2].
      * destruct (IH t' n V') as (l & E & ND & Hl); [lia|intros e Ve He; apply D; [assumption|lia]|].
        exists l. split; [assumption|]. split; [assumption|].
        intros e. rewrite Hl. split; intros (Ve & R & Be); (split; [assumption|]; split; [|assumption]); [lia|].
        destruct (Z.eq_dec (daynum e) (daynum t)) as [Q|Q]; [|lia].
        apply daynum_inj in Q; try assumption. subst. unfold business in Be. congruence.
      * assert (t = d2) by (apply daynum_inj; try assumption; lia). subst d2.
        destruct f as [|f]; [lia|]. simpl.
        destruct (date_leb t' t) eqn:L3; [apply daynum_le in L3; try assumption; lia|].
        exists []. split; [f_equal; simpl; lia|]. split; [constructor|].
        intros e. split; [intros []|]. intros (Ve & R & Be).
        assert (e = t) by (apply daynum_inj; try assumption; lia). subst.
        unfold business in Be. congruence.
  - exists []. split; [f_equal; simpl; lia|]. split; [constructor|]. intros e. split; [intros []|].
    intros (Ve & R & Be). assert (date_leb t d2 = true) by (apply daynum_le; try assumption; lia). congruence.
Qed.

Lemma business_day_count_spec c d1 d2 : valid d1 -> valid d2 -> daynum d2 < daynum date_max ->
  (forall e, valid e -> daynum d1 <= daynum e <= daynum d2 -> business c e \/ closed c e) ->
  exists l, business_day_count c d1 d2 = Ret (Z.of_nat (length l)) /\ NoDup l /\
    forall e, In e l <-> valid e /\ daynum d1 <= daynum e <= daynum d2 /\ business c e.
Proof.
  intros V1 V2 M D. unfold business_day_count.
  destruct (bd_count_loop_spec c d2 V2 M (S (S (Z.to_nat (daynum d2 - daynum d1)))) d1 0 V1) as (l & E & H);
    [lia|assumption|].
  exists l. split; [rewrite E; reflexivity|assumption].
Qed.

(** ** Date sequences *)

Definition date_lt (a b : date) : Prop := daynum a < daynum b.

Lemma date_seq_loop_spec e : valid e -> daynum e < daynum date_max ->
  forall fuel t, valid t -> (Z.to_nat (daynum e - daynum t) + 2 <= fuel)%nat ->
  exists l, date_seq_loop fuel t e = Ret l /\ StronglySorted date_lt l /\
    forall x, In x l <-> valid x /\ daynum t <= daynum x <= daynum e.
Proof.
  intros Ve M fuel. induction fuel as [|f IH]; intros t Vt F; [lia|]. simpl.
  destruct (date_leb t e) eqn:L.
  - apply daynum_le in L; try assumption.
    destruct (next_day t) as [t'|] eqn:N.
    2:{ apply next_day_None in N; [|assumption]. subst. lia. }
    destruct (next_day_spec t t' Vt N) as [V' N']. simpl.
    destruct (Z_lt_le_dec (daynum t) (daynum e)) as [L2|L2].
    + destruct (IH t' V') as (l & E & S & Hl); [lia|]. rewrite E. simpl. exists (t :: l).
      split; [reflexivity|]. split.
      * constructor; [assumption|]. apply Forall_forall. intros x Hx. apply Hl in Hx. unfold date_lt. lia.
      * intros x. simpl. rewrite Hl. split.
        -- intros [<-|[Vx R]]; (split; [assumption|lia]).
        -- intros [Vx R]. destruct (Z.eq_dec (daynum x) (daynum t)) as [Q|Q].
           ++ left. symmetry. apply daynum_inj; assumption.
           ++ right. split; [assumption|lia].
    + assert (t = e) by (apply daynum_inj; try assumption; lia). subst e.
      destruct f as [|f]; [lia|]. simpl.
      destruct (date_leb t' t) eqn:L3; [apply daynum_le in L3; try assumption; lia|]. simpl.
      exists [t]. split; [reflexivity|]. split; [repeat constructor|]. intros x. simpl. split.
      * intros [<-|[]]. split; [assumption|lia].
      * intros [Vx R]. left. apply daynum_inj; try assumption. lia.
  - exists []. split; [reflexivity|]. split; [constructor|]. intros x. split; [intros []|].
    intros [Vx R]. assert (date_leb t e = true) by (apply daynum_le; try assumption; lia). congruence.
Qed.

(** ** Extra holidays *)

Lemma is_extra_In c d : is_extra c d = true <-> In d (extra c).
Proof.
  unfold is_extra. rewrite existsb_exists. split.
  - intros (x & Hx & E). apply date_eqb_eq in E. subst. assumption.
  - intros H. exists d. split; [assumption|]. apply date_eqb_eq. reflexivity.
Qed.

Lemma add_holidays_fields ds : forall c,
  israel (add_holidays c ds) = israel c /\ market_holiday (add_holidays c ds) = market_holiday c /\
  forall d, In d (extra (add_holidays c ds)) <-> In d ds \/ In d (extra c).
Proof.
  induction ds as [|x ds IH]; intros c; simpl.
  - repeat split; auto. intros [[]|H]; assumption.
  - destruct (IH (add_holiday c x)) as (A & B & C). unfold add_holidays in *. simpl.
    split; [exact A|]. split; [exact B|]. intros d. rewrite C. simpl. tauto.
Qed.

Lemma add_holidays_business c ds d :
  (business (add_holidays c ds) d -> business c d /\ ~ In d ds) /\
  (~ In d ds -> is_business_day (add_holidays c ds) d = is_business_day c d) /\
  (In d ds -> closed (add_holidays c ds) d).
Proof.
  destruct (add_holidays_fields ds c) as (A & B & C).
  assert (W : is_weekend (add_holidays c ds) d = is_weekend c d) by (unfold is_weekend; rewrite A; reflexivity).
  assert (K : ~ In d ds -> is_business_day (add_holidays c ds) d = is_business_day c d).
  { intros H. unfold is_business_day, is_holiday. rewrite W, B.
    replace (is_extra (add_holidays c ds) d) with (is_extra c d); [reflexivity|].
    apply eq_true_iff_eq. rewrite !is_extra_In, C. tauto. }
  assert (Q : In d ds -> closed (add_holidays c ds) d).
  { intros H. unfold closed, is_business_day, is_holiday. rewrite W. destruct (is_weekend c d); [reflexivity|].
    replace (is_extra (add_holidays c ds) d) with true; [reflexivity|].
    symmetry. apply is_extra_In, C. left; assumption. }
  split; [|split; assumption].
  intros Hb. destruct (in_dec (fun a b => match date_eqb a b as r return date_eqb a b = r -> {a = b} + {a <> b} with
                                | true => fun E => left (proj1 (date_eqb_eq a b) E)
                                | false => fun E => right (fun H => eq_true_false_abs _ (proj2 (date_eqb_eq a b) H) E)
                                end eq_refl) d ds) as [H|H].
  - apply Q in H. unfold business in Hb. unfold closed in H. congruence.
  - split; [|assumption]. unfold business in *. rewrite <- K; assumption.
Qed.

(** ** Month helpers *)

Lemma next_occurrence_spec wd d : 0 <= wd <= 6 -> valid d -> daynum d + 7 <= daynum date_max ->
  exists e, next_occurrence wd d = Ret e /\ valid e /\ weekday e = wd /\
    daynum d < daynum e <= daynum d + 7.
Proof.
  intros Hw V M. unfold next_occurrence.
  pose proof (Z.mod_pos_bound (wd - weekday d - 1) 7 ltac:(lia)) as B.
  destruct (daynum_surj d V (Z.to_nat ((wd - weekday d - 1) mod 7 + 1))) as (e & E & Ve & N); [lia|].
  exists e. split; [assumption|]. split; [assumption|].
  assert (N' : daynum e = daynum d + ((wd - weekday d - 1) mod 7 + 1)) by lia.
  split; [|lia]. unfold weekday in *. rewrite N'. clear - Hw.
  Z.div_mod_to_equations. lia.
Qed.

Lemma prev_occurrence_spec wd d : 0 <= wd <= 6 -> valid d -> daynum date_min <= daynum d - 7 ->
  exists e, prev_occurrence wd d = Ret e /\ valid e /\ weekday e = wd /\
    daynum d - 7 <= daynum e < daynum d.
Proof.
  intros Hw V M. unfold prev_occurrence.
  pose proof (Z.mod_pos_bound (weekday d - wd - 1) 7 ltac:(lia)) as B.
  destruct (sub_days_spec d V (Z.to_nat ((weekday d - wd - 1) mod 7 + 1))) as (e & E & Ve & N); [lia|].
  exists e. split; [assumption|]. split; [assumption|].
  assert (N' : daynum e = daynum d - ((weekday d - wd - 1) mod 7 + 1)) by lia.
  split; [|lia]. unfold weekday in *. rewrite N'. clear - Hw.
  Z.div_mod_to_equations. lia.
Qed.

Lemma weekday_week_apart a b : weekday a = weekday b -> daynum a < daynum b -> daynum a + 7 <= daynum b.
Proof. unfold weekday. intros. Z.div_mod_to_equations. lia. Qed.

Lemma weekday_cong a b : weekday a = weekday b -> (daynum a - daynum b) mod 7 = 0.
Proof. unfold weekday. intros. Z.div_mod_to_equations. lia. Qed.

Lemma first_weekday_spec wd y m : 0 <= wd <= 6 -> -9999 <= y <= 9999 -> 1 <= m <= 12 ->
  exists d, first_weekday_of_month wd y m = Ret (Some d) /\ valid d /\
    year d = y /\ month d = m /\ weekday d = wd /\
    forall e, valid e -> year e = y -> month e = m -> weekday e = wd -> daynum d <= daynum e.
Proof.
  intros Hw Hy Hm. unfold first_weekday_of_month, from_ymd.
  pose proof (month_length_range y m) as R.
  assert (V : valid (Date y m 1)) by (repeat split; simpl; lia).
  assert (VL : valid (Date y m (month_length y m))) by (repeat split; simpl; lia).
  destruct (validb (Date y m 1)) eqn:E; [|exfalso; apply validb_valid in V; congruence].
  destruct (Z.eqb_spec (weekday (Date y m 1)) wd) as [Q|Q].
  - exists (Date y m 1). repeat split; try (simpl; lia); try assumption.
    intros e Ve Ey Em We. apply (proj1 (in_month_num y m e V Ve)). split; assumption.
  - pose proof (daynum_le_max _ VL) as LM. rewrite last_of_month_num in LM.
    pose proof (first_of_month_num y m) as FM.
    destruct (next_occurrence_spec wd (Date y m 1)) as (e & Ee & Ve & We & Le); [assumption|assumption|lia|].
    rewrite Ee. simpl. exists e. split; [reflexivity|]. split; [assumption|].
    destruct (proj2 (in_month_num y m e V Ve)) as [Ey Em].
    { rewrite last_of_month_num. lia. }
    split; [assumption|]. split; [assumption|]. split; [assumption|].
    intros x Vx Hx Hm' Wx. destruct (Z_lt_le_dec (daynum x) (daynum e)) as [L|L]; [|assumption].
    assert (daynum x + 7 <= daynum e) by (apply weekday_week_apart; congruence).
    assert (daynum (Date y m 1) <= daynum x) by (apply (proj1 (in_month_num y m x V Vx)); split; assumption).
    assert (daynum x = daynum (Date y m 1)) by lia.
    apply daynum_inj in H1; try assumption. subst x. congruence.
Qed.

Lemma last_weekday_spec wd y m : 0 <= wd <= 6 -> -9999 <= y <= 9999 -> 1 <= m <= 12 ->
  exists d, last_weekday_of_month wd y m = Ret (Some d) /\ valid d /\
    year d = y /\ month d = m /\ weekday d = wd /\
    forall e, valid e -> year e = y -> month e = m -> weekday e = wd -> daynum e <= daynum d.
Proof.
  intros Hw Hy Hm. unfold last_weekday_of_month, from_ymd.
  pose proof (month_length_range y m) as R.
  assert (V : valid (Date y m 1)) by (repeat split; simpl; lia).
  assert (VL : valid (Date y m (month_length y m))) by (repeat split; simpl; lia).
  destruct (validb (Date y m (month_length y m))) eqn:E; [|exfalso; apply validb_valid in VL; congruence].
  destruct (Z.eqb_spec (weekday (Date y m (month_length y m))) wd) as [Q|Q].
  - exists (Date y m (month_length y m)). repeat split; try (simpl; lia); try assumption.
    intros e Ve Ey Em We. apply (proj1 (in_month_num y m e V Ve)). split; assumption.
  - pose proof (daynum_ge_min _ V) as LM. rewrite first_of_month_num in LM.
    pose proof (last_of_month_num y m) as FM.
    destruct (prev_occurrence_spec wd (Date y m (month_length y m))) as (e & Ee & Ve & We & Le); [assumption|assumption|lia|].
    rewrite Ee. simpl. exists e. split; [reflexivity|]. split; [assumption|].
    destruct (proj2 (in_month_num y m e V Ve)) as [Ey Em].
    { rewrite first_of_month_num. lia. }
    split; [assumption|]. split; [assumption|]. split; [assumption|].
    intros x Vx Hx Hm' Wx. destruct (Z_lt_le_dec (daynum e) (daynum x)) as [L|L]; [|assumption].
    assert (daynum e + 7 <= daynum x) by (apply weekday_week_apart; congruence).
    assert (daynum x <= daynum (Date y m (month_length y m))) by (apply (proj1 (in_month_num y m x V Vx)); split; assumption).
    assert (daynum x = daynum (Date y m (month_length y m))) by lia.
    apply daynum_inj in H1; try assumption. subst x. congruence.
Qed.

Lemma years_in_range_In a b y : In y (years_in_range a b) <-> year a <= y <= year b.
Proof.
  unfold years_in_range. rewrite in_map_iff. split.
  - intros (k & <- & Hk). apply in_seq in Hk. lia.
  - intros H. exists (Z.to_nat (y - year a)). split; [lia|]. apply in_seq. lia.
Qed.

Lemma years_in_range_NoDup a b : NoDup (years_in_range a b).
Proof.
  unfold years_in_range. apply Injective_map_NoDup; [|apply seq_NoDup].
  intros x y H. lia.
Qed.
