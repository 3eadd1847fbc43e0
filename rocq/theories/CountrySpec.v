(** What the national holidays are, said without reference to the code: a small
    language of holiday rules and its meaning in terms of dates and day counts. *)
From Coq Require Import ZArith List Bool Lia.
From Verif Require Import Res DateModel CalModel CountryModel.
Import ListNotations.
Open Scope Z_scope.

(** Easter Sunday of the Western churches, by the Gregorian computus *)
Definition easter_sunday (y : Z) : date :=
  let a := y mod 19 in let b := y / 100 in let c := y mod 100 in
  let e := b mod 4 in let g := (b - (b + 8) / 25 + 1) / 3 in
  let h := (19 * a + b - b / 4 - g + 15) mod 30 in
  let l := (32 + 2 * e + 2 * (c / 4) - h - c mod 4) mod 7 in
  let n := h + l - 7 * ((a + 11 * h + 22 * l) / 451) + 114 in
  Date y (n / 31) (n mod 31 + 1).
(** Orthodox Easter Sunday, a date of the Julian calendar, as a day number: the
    Julian 1 January of year 1 is two days before the Gregorian one *)
Definition orthodox_sunday (y : Z) : Z :=
  let a := y mod 4 in let b := y mod 7 in let c := y mod 19 in
  let d := (19 * c + 15) mod 30 in
  let n := d + (2 * a + 4 * b - d + 34) mod 7 + 114 in
  let m := n / 31 in
  365 * (y - 1) + (y - 1) / 4 - 2 + (if m =? 3 then 59 else 90) + (if y mod 4 =? 0 then 1 else 0) + (n mod 31 + 1).

Inductive hrule :=
| Fixed (m dd : Z)                          (* every year on this day *)
| Easter (k : Z)                            (* k days after Easter Sunday *)
| NthDay (n wd m : Z)                       (* the n-th such weekday of month m *)
| LastDay (wd m : Z)                        (* the last such weekday of month m *)
| OnOrAfter (wd m dd : Z)                   (* the first such weekday from this day on *)
| OnOrBefore (wd m dd : Z)                  (* the last such weekday up to this day *)
| Nearest (wd m dd : Z)                     (* the such weekday nearest to this day *)
| Once (y m dd : Z)                         (* a single date *)
| Moved (ws : list Z) (k : Z) (r : hrule)   (* when r falls on one of these weekdays, the day k days later *)
| Between (y0 y1 : Z) (r : hrule)           (* only in these years *)
| Except (ys : list Z) (r : hrule)          (* not in these years *)
| Every (n y0 : Z) (r : hrule).             (* in every n-th year, counting from y0 *)

(** how many of the first n days of the month are such weekdays *)
Fixpoint count_wd (y m wd : Z) (n : nat) : Z :=
  match n with
  | O => 0
  | S k => count_wd y m wd k + (if weekday (Date y m (Z.of_nat n)) =? wd then 1 else 0)
  end.

Fixpoint occ (r : hrule) (d : date) : Prop :=
  match r with
  | Fixed m dd => month d = m /\ day d = dd
  | Easter k => daynum d = daynum (easter_sunday (year d)) + k
  | NthDay n wd m => month d = m /\ weekday d = wd /\ count_wd (year d) m wd (Z.to_nat (day d)) = n
  | LastDay wd m => month d = m /\ weekday d = wd /\
      forall e, valid e -> year e = year d -> month e = m -> weekday e = wd -> day e <= day d
  | OnOrAfter wd m dd => weekday d = wd /\ exists h, valid h /\ month h = m /\ day h = dd /\ 0 <= daynum d - daynum h <= 6
  | OnOrBefore wd m dd => weekday d = wd /\ exists h, valid h /\ month h = m /\ day h = dd /\ 0 <= daynum h - daynum d <= 6
  | Nearest wd m dd => weekday d = wd /\ exists h, valid h /\ month h = m /\ day h = dd /\ -3 <= daynum d - daynum h <= 3
  | Once y m dd => d = Date y m dd
  | Moved ws k r => exists h, valid h /\ occ r h /\ In (weekday h) ws /\ daynum d = daynum h + k
  | Between y0 y1 r => occ r d /\ y0 <= year d <= y1
  | Except ys r => occ r d /\ ~ In (year d) ys
  | Every n y0 r => occ r d /\ (n | year d - y0)
  end.
(** the date is one of the holidays of the list *)
Definition holiday_by (rs : list hrule) (d : date) : Prop := exists r, In r rs /\ occ r d.

(** ** The Easter table *)
Lemma easter_table_check :
  forallb (fun k => let y := 1901 + Z.of_nat k in let s := easter_sunday y in
    match easter_monday false y with Some e => e =? ordinal s + 1 | None => false end && validb s && (weekday s =? 6)
    && (79 <=? ordinal s) && (ordinal s <=? 117)
    && match easter_monday true y with Some e => before_year y + e =? orthodox_sunday y + 1 | None => false end && (orthodox_sunday y mod 7 =? 0)) (seq 0 299) = true.
Proof. vm_compute. reflexivity. Qed.
(** For every year of the table the Western entry is the day of the year after
    Easter Sunday as given by the computus, which is a Sunday between 22 March and
    25 April; the Orthodox entry likewise. Outside the table the lookup panics. *)
Theorem easter_table : forall y, 1901 <= y <= 2199 ->
  easter_monday false y = Some (ordinal (easter_sunday y) + 1) /\ valid (easter_sunday y) /\ weekday (easter_sunday y) = 6 /\
  year (easter_sunday y) = y /\ 79 <= ordinal (easter_sunday y) <= 117 /\
  exists e, easter_monday true y = Some e /\ before_year y + e = orthodox_sunday y + 1 /\ orthodox_sunday y mod 7 = 0.
Proof.
  intros y Hy. pose proof easter_table_check as H. rewrite forallb_forall in H. specialize (H (Z.to_nat (y - 1901))).
  assert (I : In (Z.to_nat (y - 1901)) (seq 0 299)) by (apply in_seq; lia). specialize (H I). clear I. cbv zeta in H.
  replace (1901 + Z.of_nat (Z.to_nat (y - 1901))) with y in H by lia. rewrite !andb_true_iff in H. destruct H as ((((((A & B) & C) & D) & E) & F) & G).
  destruct (easter_monday false y) as [e|]; [|discriminate]. apply Z.eqb_eq in A. apply validb_valid in B. apply Z.eqb_eq in C. apply Z.leb_le in D, E.
  destruct (easter_monday true y) as [o|]; [|discriminate]. apply Z.eqb_eq in F, G.
  split; [congruence|]. split; [exact B|]. split; [exact C|]. split; [reflexivity|]. split; [lia|]. exists o. auto.
Qed.
Print Assumptions easter_table.
Theorem easter_table_panics : forall y o, y < 1901 \/ 2199 < y -> easter_monday o y = None.
Proof.
  intros y o H. unfold easter_monday. destruct (Z.ltb_spec y 1901); [reflexivity|]. apply nth_error_None.
  assert (L : length (if o then orthodox_easter_mondays else western_easter_mondays) = 299%nat) by (destruct o; reflexivity). rewrite L. lia.
Qed.
Print Assumptions easter_table_panics.
Example easter_case : easter_sunday 2024 = Date 2024 3 31 /\ orthodox_sunday 2024 = daynum (Date 2024 5 5).
Proof. split; reflexivity. Qed.

(** ** The rules in terms of the fields of a date *)
Definition mlen (m : Z) : Z := if m =? 2 then 28 else if (m =? 4) || (m =? 6) || (m =? 9) || (m =? 11) then 30 else 31.
(** month and day k days after day dd of month m, and the change of year *)
Definition target (m dd k : Z) : option (Z * Z * Z) :=
  if (1 <=? m) && (m <=? 12) && (1 <=? dd) && (dd <=? mlen m) then
    if (1 <=? dd + k) && (dd + k <=? mlen m) then Some (m, dd + k, 0)
    else if (mlen m <? dd + k) && (dd + k - mlen m <=? 28) && negb (m =? 2) && negb (m =? 12) then Some (m + 1, dd + k - mlen m, 0)
    else if (dd + k <? 1) && (1 <=? dd + k + 31) && (m =? 1) then Some (12, dd + k + 31, -1)
    else None
  else None.
Fixpoint flat (em : Z) (r : hrule) (d : date) : Prop :=
  match r with
  | Fixed m dd => month d = m /\ day d = dd
  | Easter k => ordinal d = em + (k - 1)
  | NthDay n wd m => month d = m /\ weekday d = wd /\ 7 * (n - 1) + 1 <= day d <= 7 * n
  | LastDay wd m => month d = m /\ weekday d = wd /\ mlen m - 6 <= day d
  | OnOrAfter wd m dd => weekday d = wd /\ month d = m /\ dd <= day d <= dd + 6
  | OnOrBefore wd m dd => weekday d = wd /\ month d = m /\ dd - 6 <= day d <= dd
  | Nearest wd m dd => weekday d = wd /\ month d = m /\ dd - 3 <= day d <= dd + 3
  | Once y m dd => year d = y /\ month d = m /\ day d = dd
  | Moved ws k (Fixed m dd) =>
      match target m dd k with
      | Some (m', d', _) => month d = m' /\ day d = d' /\ In (weekday d) (map (fun w => (w + k) mod 7) ws)
      | None => False
      end
  | Moved _ _ _ => False
  | Between y0 y1 r => flat em r d /\ y0 <= year d <= y1
  | Except ys r => flat em r d /\ ~ In (year d) ys
  | Every n y0 r => flat em r d /\ (year d - y0) mod n = 0
  end.
Fixpoint okr (r : hrule) : bool :=
  match r with
  | Fixed _ _ | Easter _ | Once _ _ _ => true
  | NthDay n wd m => (1 <=? m) && (m <=? 12) && (1 <=? n)
  | LastDay wd m => (1 <=? m) && (m <=? 12) && negb (m =? 2)
  | OnOrAfter _ m dd => (1 <=? m) && (m <=? 12) && (1 <=? dd) && (dd + 6 <=? mlen m)
  | OnOrBefore _ m dd => (1 <=? m) && (m <=? 12) && (1 <=? dd - 6) && (dd <=? mlen m)
  | Nearest _ m dd => (1 <=? m) && (m <=? 12) && (1 <=? dd - 3) && (dd + 3 <=? mlen m)
  | Moved ws k (Fixed m dd) => forallb (fun w => (0 <=? w) && (w <=? 6)) ws && match target m dd k with Some _ => true | None => false end
  | Moved _ _ _ => false
  | Between _ _ r | Except _ r => okr r
  | Every n _ r => negb (n =? 0) && okr r
  end.

Lemma mlen_le y m : mlen m <= month_length y m /\ (m <> 2 -> mlen m = month_length y m).
Proof. unfold mlen, month_length. destruct (Z.eqb_spec m 2); [destruct (is_leap y); lia|]. destruct (_ || _); lia. Qed.
Lemma daynum_same y m a b : daynum (Date y m a) - daynum (Date y m b) = a - b.
Proof. unfold daynum, ordinal. simpl. lia. Qed.
Lemma weekday_same y m a b : weekday (Date y m a) = (weekday (Date y m b) + (a - b)) mod 7.
Proof. unfold weekday. rewrite <- (daynum_same y m a b). rewrite Zplus_mod_idemp_l. f_equal. lia. Qed.
Lemma mod_eq a b : a mod 7 = b mod 7 -> exists k, a - b = 7 * k.
Proof. intros H. exists (a / 7 - b / 7). Z.div_mod_to_equations. lia. Qed.

Lemma count_wd_spec y m wd n : 0 <= wd <= 6 ->
  count_wd y m wd n = (Z.of_nat n + 6 - (wd - weekday (Date y m 1)) mod 7) / 7.
Proof.
  intros Hw. induction n as [|n IH]; [cbn [count_wd]; Z.div_mod_to_equations; lia|]. cbn [count_wd]. rewrite IH. rewrite (weekday_same y m (Z.of_nat (S n)) 1).
  pose proof (weekday_range (Date y m 1)) as R. set (w := weekday (Date y m 1)) in *. clearbody w. rewrite Nat2Z.inj_succ. set (k := Z.of_nat n) in *. assert (0 <= k) by lia. clearbody k. clear IH.
  destruct (Z.eqb_spec ((w + (Z.succ k - 1)) mod 7) wd) as [E|E]; Z.div_mod_to_equations; lia.
Qed.
Lemma nth_day n wd d : valid d -> weekday d = wd -> 1 <= n -> (count_wd (year d) (month d) wd (Z.to_nat (day d)) = n <-> 7 * (n - 1) + 1 <= day d <= 7 * n).
Proof.
  intros V W N. pose proof (weekday_range d) as R. rewrite count_wd_spec by lia. destruct d as [y m dd]. cbn [year month day] in *. destruct V as (_ & _ & VD). cbn [year month day] in VD.
  rewrite (weekday_same y m dd 1) in W. pose proof (weekday_range (Date y m 1)) as R1. set (w := weekday (Date y m 1)) in *. clearbody w. rewrite Z2Nat.id by lia.
  assert (X : 0 <= (wd - w) mod 7 <= 6) by (pose proof (Z.mod_pos_bound (wd - w) 7); lia). assert (Q : exists q, dd - 1 - (wd - w) mod 7 = 7 * q).
    { exists ((w + (dd - 1)) / 7 + (wd - w) / 7). Z.div_mod_to_equations. lia. }
  destruct Q as [q Q]. set (x := (wd - w) mod 7) in *. clearbody x. replace (dd + 6 - x) with ((q + 1) * 7) by lia. rewrite Z.div_mul by lia. lia.
Qed.

Lemma target_spec y m dd k m' d' dy : target m dd k = Some (m', d', dy) -> -9999 <= y <= 9999 -> -9999 <= y + dy <= 9999 ->
  valid (Date y m dd) /\ valid (Date (y + dy) m' d') /\ daynum (Date (y + dy) m' d') = daynum (Date y m dd) + k.
Proof.
  unfold target. destruct ((1 <=? m) && (m <=? 12) && (1 <=? dd) && (dd <=? mlen m)) eqn:A; [|discriminate]. rewrite !andb_true_iff, !Z.leb_le in A. destruct A as (((A1 & A2) & A3) & A4).
  intros T Hy Hy'. pose proof (mlen_le y m) as [L1 L2]. assert (V : valid (Date y m dd)) by (repeat split; simpl; lia). split; [exact V|].
  destruct ((1 <=? dd + k) && (dd + k <=? mlen m)) eqn:B.
  - injection T as <- <- <-. rewrite andb_true_iff, !Z.leb_le in B. rewrite Z.add_0_r. split; [repeat split; simpl; lia|]. pose proof (daynum_same y m (dd + k) dd). lia.
  - destruct ((mlen m <? dd + k) && (dd + k - mlen m <=? 28) && negb (m =? 2) && negb (m =? 12)) eqn:C.
    + injection T as <- <- <-. rewrite !andb_true_iff, !negb_true_iff, Z.ltb_lt, Z.leb_le, !Z.eqb_neq in C. destruct C as (((C1 & C2) & C3) & C4). rewrite Z.add_0_r.
      pose proof (month_length_range y (m + 1)). split; [repeat split; simpl; lia|]. unfold daynum, ordinal. cbn [year month day]. rewrite before_month_step by lia. lia.
    + destruct ((dd + k <? 1) && (1 <=? dd + k + 31) && (m =? 1)) eqn:D; [|discriminate]. injection T as <- <- <-. rewrite !andb_true_iff, Z.ltb_lt, Z.leb_le, Z.eqb_eq in D. destruct D as ((D1 & D2) & ->).
      split; [change (month_length (y + -1) 12) with 31; repeat split; cbn [year month day]; try lia; change (month_length (y + -1) 12) with 31; lia|]. unfold daynum, ordinal. cbn [year month day]. replace (y + -1) with (y - 1) by lia. pose proof (before_year_step (y - 1)) as S. replace (y - 1 + 1) with y in S by lia. rewrite S, <- before_month_last, before_month_first. lia.
Qed.
Lemma target_dy m dd k m' d' dy : target m dd k = Some (m', d', dy) -> dy = 0 \/ dy = -1.
Proof.
  unfold target. destruct (_ && _); [|discriminate]. destruct (_ && _); [intros H; injection H; auto|]. destruct (_ && _); [intros H; injection H; auto|]. destruct (_ && _); [|discriminate]. intros H; injection H; auto.
Qed.
Lemma weekday_shift a b k : daynum a = daynum b + k -> weekday a = (weekday b + k) mod 7.
Proof. intros H. unfold weekday. rewrite H, Zplus_mod_idemp_l. f_equal. lia. Qed.

Lemma window wd m dd lo hi d : 1 <= m <= 12 -> 1 <= dd + lo -> dd + hi <= mlen m -> 1 <= dd <= mlen m -> lo <= hi -> valid d ->
  ((weekday d = wd /\ exists h, valid h /\ month h = m /\ day h = dd /\ lo <= daynum d - daynum h <= hi) <-> weekday d = wd /\ month d = m /\ dd + lo <= day d <= dd + hi).
Proof.
  intros Hm H1 H2 Hd Hlh V. split.
  - intros (W & h & VH & Mh & Dh & B). split; [exact W|]. destruct h as [y m0 d0]. simpl in *. subst m0 d0.
    pose proof (mlen_le y m) as [L _]. set (t := dd + (daynum d - daynum (Date y m dd))). assert (VT : valid (Date y m t)) by (unfold t; destruct VH as (P & _); repeat split; simpl in *; lia).
    assert (E : d = Date y m t). { apply daynum_inj; [exact V|exact VT|]. pose proof (daynum_same y m t dd). unfold t in *. lia. }
    rewrite E. simpl. unfold t. lia.
  - intros (W & M & B). split; [exact W|]. destruct d as [y m0 d0]. simpl in *. subst m0. exists (Date y m dd). pose proof (mlen_le y m) as [L _]. pose proof (daynum_same y m d0 dd).
    destruct V as (V1 & _). simpl in V1. repeat split; simpl; lia.
Qed.

Lemma occ_flat : forall r d em, okr r = true -> valid d -> 1901 <= year d <= 2199 -> easter_monday false (year d) = Some em -> (occ r d <-> flat em r d).
Proof.
  induction r as [m dd|k|n wd m|wd m|wd m dd|wd m dd|wd m dd|y m dd|ws k r IH|y0 y1 r IH|ys r IH|n y0 r IH]; intros d em OK V Y E.
  - reflexivity.
  - cbn [occ flat]. destruct (easter_table (year d) Y) as (T & _ & _ & YE & _). rewrite T in E. assert (EM : em = ordinal (easter_sunday (year d)) + 1) by congruence.
    unfold daynum. rewrite YE. lia.
  - cbn [occ flat okr] in *. rewrite !andb_true_iff, !Z.leb_le in OK. split; intros (<- & W & H); (split; [reflexivity|split; [exact W|]]); apply (nth_day n wd d V W ltac:(lia)); exact H.
  - cbn [occ flat okr] in *. rewrite !andb_true_iff, !Z.leb_le, negb_true_iff, Z.eqb_neq in OK. destruct d as [y m0 d0]. simpl in *. split.
    + intros (-> & W & H). split; [reflexivity|]. split; [exact W|]. destruct (Z_le_gt_dec (mlen m - 6) d0) as [|G]; [assumption|]. exfalso. pose proof (mlen_le y m) as [_ L]. destruct V as (V1 & V2 & V3). simpl in *.
      assert (VV : valid (Date y m (d0 + 7))) by (repeat split; simpl; lia). assert (W7 : weekday (Date y m (d0 + 7)) = wd). { rewrite (weekday_same y m (d0 + 7) d0), W. pose proof (weekday_range (Date y m d0)). replace (d0 + 7 - d0) with 7 by lia. Z.div_mod_to_equations. lia. }
      specialize (H _ VV eq_refl eq_refl W7). simpl in H. lia.
    + intros (-> & W & H). split; [reflexivity|]. split; [exact W|]. intros [y' m' d'] VE YE ME WE. simpl in *. subst y' m'. pose proof (mlen_le y m) as [_ L]. destruct VE as (_ & _ & VE). simpl in VE.
      destruct (Z_le_gt_dec d' d0) as [|G]; [assumption|]. exfalso. rewrite (weekday_same y m d' d0), W in WE. pose proof (weekday_range (Date y m d0)). rewrite W in *. assert (d' - d0 = 7 * ((wd + (d' - d0)) / 7)) by (Z.div_mod_to_equations; lia). lia.
  - cbn [occ flat okr] in *. rewrite !andb_true_iff, !Z.leb_le in OK. rewrite (window wd m dd 0 6 d) by (try assumption; lia). rewrite Z.add_0_r. reflexivity.
  - cbn [occ flat okr] in *. rewrite !andb_true_iff, !Z.leb_le in OK. replace (dd - 6 <= day d <= dd) with (dd + -6 <= day d <= dd + 0) by (rewrite Z.add_0_r; reflexivity). rewrite <- (window wd m dd (-6) 0 d) by (try assumption; lia).
    split; intros (W & h & A & B & C & D); (split; [exact W|exists h; split; [exact A|split; [exact B|split; [exact C|lia]]]]).
  - cbn [occ flat okr] in *. rewrite !andb_true_iff, !Z.leb_le in OK. rewrite (window wd m dd (-3) 3 d) by (try assumption; lia). reflexivity.
  - cbn [occ flat]. destruct d as [a b c]. simpl. split; [intros H; injection H; auto|intros (-> & -> & ->); reflexivity].
  - destruct r; try discriminate. cbn [occ flat okr] in *. rewrite andb_true_iff in OK. destruct OK as [O1 O2]. destruct (target m dd k) as [[[m' d'] dy]|] eqn:T; [|discriminate]. clear O2 IH.
    pose proof (target_dy _ _ _ _ _ _ T) as DY. rewrite forallb_forall in O1. split.
    + intros (h & VH & (Mh & Dh) & W & N). destruct h as [yh mh dh]. simpl in Mh, Dh. subst mh dh.
      assert (YB : -9999 <= yh + dy <= 9999). { pose proof (proj1 VH) as A. simpl in A. destruct DY as [-> | ->]; [lia|]. destruct (Z.eq_dec yh (-9999)) as [->|]; [|lia]. exfalso.
        pose proof (daynum_same (-9999) m dd 1). assert (before_year (year d) <= daynum d) by (pose proof (ordinal_range d V); unfold daynum; lia).
        assert (L1 : before_year 1901 <= before_year (year d)) by (apply before_year_le; lia). assert (L2 : daynum (Date (-9999) m dd) <= before_year (-9998)).
        { pose proof (ordinal_range (Date (-9999) m dd) VH). pose proof (before_year_step (-9999)) as S. change (-9999 + 1) with (-9998) in S. unfold daynum. cbn [year] in *. lia. }
        assert (L3 : before_year (-9998) + 100000 < before_year 1901) by (vm_compute; reflexivity).
        unfold target in T. destruct (_ && _); [|discriminate]. destruct (_ && _); [discriminate|]. destruct (_ && _); [discriminate|]. destruct ((dd + k <? 1) && _ && _) eqn:Q; [|discriminate]. rewrite !andb_true_iff, Z.ltb_lt, Z.leb_le in Q.
        pose proof (proj2 (proj2 VH)) as VD. cbn [year month day] in VD. lia. }
      destruct (target_spec yh m dd k m' d' dy T (proj1 VH) YB) as (_ & VT & NT).
      assert (ED : d = Date (yh + dy) m' d') by (apply daynum_inj; [exact V|exact VT|lia]). rewrite ED at 1 2. simpl. split; [reflexivity|]. split; [reflexivity|].
      rewrite (weekday_shift d (Date yh m dd) k N). apply (in_map (fun w => (w + k) mod 7)). exact W.
    + intros (M & D & W). apply in_map_iff in W. destruct W as (w & EW & IW). destruct d as [y m0 d0]. simpl in M, D, Y. subst m0 d0.
      exists (Date (y - dy) m dd). destruct (target_spec (y - dy) m dd k m' d' dy T ltac:(destruct DY; lia) ltac:(lia)) as (VH & VT & NT). replace (y - dy + dy) with y in * by lia.
      split; [exact VH|]. split; [simpl; auto|]. split; [|lia]. pose proof (weekday_shift (Date y m' d') (Date (y - dy) m dd) k NT) as WS. rewrite <- EW in WS. specialize (O1 w IW). rewrite andb_true_iff, !Z.leb_le in O1.
      pose proof (weekday_range (Date (y - dy) m dd)) as R. assert (w = weekday (Date (y - dy) m dd)) by (Z.div_mod_to_equations; lia). subst w. exact IW.
  - cbn [occ flat okr] in *. rewrite (IH d em OK V Y E). reflexivity.
  - cbn [occ flat okr] in *. rewrite (IH d em OK V Y E). reflexivity.
  - cbn [occ flat okr] in *. rewrite andb_true_iff, negb_true_iff, Z.eqb_neq in OK. destruct OK as [N OK]. rewrite (IH d em OK V Y E). rewrite <- Z.mod_divide by exact N. reflexivity.
Qed.
Lemma holiday_flat rs d em : forallb okr rs = true -> valid d -> 1901 <= year d <= 2199 -> easter_monday false (year d) = Some em ->
  (holiday_by rs d <-> exists r, In r rs /\ flat em r d).
Proof.
  intros OK V Y E. rewrite forallb_forall in OK. split; intros (r & I & H); exists r; (split; [exact I|]); apply (occ_flat r d em (OK r I) V Y E); exact H.
Qed.
Fixpoint flats (em : Z) (rs : list hrule) (d : date) : Prop := match rs with [] => False | r :: q => flat em r d \/ flats em q d end.
Lemma flats_ex em rs d : (exists r, In r rs /\ flat em r d) <-> flats em rs d.
Proof.
  induction rs as [|r q IH]; [split; [intros (? & [] & _)|intros []]|]. cbn [flats]. rewrite <- IH. split.
  - intros (r' & [->|I] & H); [left; exact H|right; exists r'; auto].
  - intros [H|(r' & I & H)]; [exists r; simpl; auto|exists r'; simpl; auto].
Qed.
