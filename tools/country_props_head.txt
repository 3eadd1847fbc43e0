(** C74-C76: the national calendars. For each country, the list of its holidays as
    rules of [CountrySpec] and the theorem that the code accepts exactly those
    dates. (The lists are generated by tools/gen_country_props.py.) *)
From Coq Require Import ZArith List Bool Lia.
From Verif Require Import Res DateModel CalModel CalProofs CountryModel CountrySpec.
Import ListNotations.
Open Scope Z_scope.

(** ** Proof support *)
Lemma country_flat_or rule rs (T : date -> bool) d : valid d -> 1901 <= year d <= 2199 -> forallb okr rs = true ->
  (forall em, rule (year d) (month d) (day d) (weekday d) (ordinal d) em = true <-> flats em rs d \/ T d = true) ->
  (country rule d = Some true <-> holiday_by rs d \/ T d = true).
Proof.
  intros V Y OK H. destruct (easter_table (year d) Y) as (E & _). rewrite (holiday_flat rs d _ OK V Y E), flats_ex, <- H. unfold country. rewrite E.
  split; [intros Q; injection Q; auto|intros ->; reflexivity].
Qed.
Definition rule_at (rule : Z -> Z -> Z -> Z -> Z -> Z -> bool) (d : date) (em : Z) : bool :=
  rule (year d) (month d) (day d) (weekday d) (ordinal d) em.
Lemma country_flat rule rs d : valid d -> 1901 <= year d <= 2199 -> forallb okr rs = true ->
  (forall em, rule_at rule d em = true <-> flats em rs d) -> (country rule d = Some true <-> holiday_by rs d).
Proof.
  intros V Y OK H. rewrite (country_flat_or rule rs (fun _ => false) d V Y OK); [intuition discriminate|].
  intros em. rewrite <- H. unfold rule_at. intuition discriminate.
Qed.
Lemma rem_mod a n : 0 < n -> (Z.rem a n =? 0) = (a mod n =? 0).
Proof.
  intros N. apply eq_iff_eq_true. rewrite !Z.eqb_eq. rewrite Z.rem_divide, Z.mod_divide by lia. reflexivity.
Qed.
Ltac leaf := lazymatch goal with |- _ mod _ = _ => first [assumption | Z.div_mod_to_equations; lia] | |- _ => lia end.
(** a disjunct that linear arithmetic can prove *)
Ltac pick :=
  lazymatch goal with
  | |- _ \/ _ => first [left; pick | right; pick]
  | |- _ /\ _ => split; pick
  | |- _ || _ = true => apply orb_true_iff; first [left; pick | right; pick]
  | |- _ && _ = true => apply andb_true_iff; split; pick
  | |- negb _ = true => apply negb_true_iff; pick
  | |- (_ =? _) = true => apply Z.eqb_eq; leaf
  | |- (_ =? _) = false => apply Z.eqb_neq; leaf
  | |- (_ <=? _) = true => apply Z.leb_le; lia
  | |- (_ <? _) = true => apply Z.ltb_lt; lia
  | |- ?b = true => first [assumption | reflexivity]
  | |- False => lia
  | |- _ => leaf
  end.
Ltac breakH :=
  repeat match goal with
  | H : _ \/ _ |- _ => destruct H
  | H : _ /\ _ |- _ => destruct H
  | H : False |- _ => destruct H
  | H : _ || _ = true |- _ => apply orb_true_iff in H; destruct H
  | H : _ && _ = true |- _ => apply andb_true_iff in H; destruct H
  | H : _ || _ = false |- _ => apply orb_false_iff in H; destruct H
  | H : negb _ = true |- _ => apply negb_true_iff in H
  | H : (_ =? _) = true |- _ => apply Z.eqb_eq in H
  | H : (_ =? _) = false |- _ => apply Z.eqb_neq in H
  | H : (_ <=? _) = true |- _ => apply Z.leb_le in H
  | H : (_ <=? _) = false |- _ => apply Z.leb_gt in H
  | H : (_ <? _) = true |- _ => apply Z.ltb_lt in H
  end.
Ltac ifs := repeat match goal with |- context [if ?b then _ else _] => let E := fresh "E" in destruct b eqn:E end.
Ltac range_cases x a n :=
  lazymatch n with
  | O => exfalso; lia
  | S ?n' => let D := fresh "D" in assert (D : x = a \/ a + 1 <= x) by lia; destruct D as [D|D];
             [|let b := eval compute in (a + 1) in change (a + 1) with b in D; range_cases x b n']
  end.
Ltac day_cases d := range_cases (day d) 1 31%nat.
Ltac wd_cases d :=
  let D := fresh "D" in
  assert (D : weekday d = 0 \/ weekday d = 1 \/ weekday d = 2 \/ weekday d = 3 \/ weekday d = 4 \/ weekday d = 5 \/ weekday d = 6) by lia;
  destruct D as [D|[D|[D|[D|[D|[D|D]]]]]].
Ltac prove_country d V Y :=
  let WR := fresh "WR" in let ML := fresh "ML" in
  pose proof (weekday_range d) as WR; destruct V as (_ & ? & ?); pose proof (month_length_range (year d) (month d)) as ML;
  cbn [flats flat];
  repeat match goal with |- context [target ?m ?k ?n] => let v := eval compute in (target m k n) in change (target m k n) with v end;
  repeat match goal with |- context [map ?f ?l] => let v := eval compute in (map f l) in change (map f l) with v end;
  repeat match goal with |- context [mlen ?m] => let v := eval compute in (mlen m) in change (mlen m) with v end;
  cbn [In]; cbv iota beta;
  rewrite ?rem_mod by lia; ifs; split; let HH := fresh "HH" in intros HH; breakH; try solve [exfalso; lia]; try solve [pick];
  try solve [range_cases (month d) 1 12%nat; pick];
  try solve [day_cases d; try solve [exfalso; lia]; first [pick | wd_cases d; solve [exfalso; lia | pick]]].
