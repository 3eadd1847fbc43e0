(** C18, C19, C20: linear and exponential interpolation. *)
From Coq Require Import Reals List Bool ZArith Lra Lia Sorted Permutation.
From Verif Require Import Res InterpModel InterpProofs.
Import ListNotations.
Open Scope R_scope.

(** the points [(x, y)] supplied to the constructor *)
Definition pt (xs ys : list R) (x y : R) : Prop := In (x, y) (combine xs ys).
(** [xl] and [xr] are neighbouring abscissae *)
Definition neighbours (xs : list R) (xl xr : R) : Prop :=
  xl < xr /\ forall x, In x xs -> ~ (xl < x < xr).

(** ** C18 *)

Theorem interp_new_total : forall xs ys,
  (length xs = length ys <-> exists t, interp_new xs ys = Some t).
Proof.
  intros xs ys. split.
  - intros H. rewrite interp_new_Some by assumption. eexists; reflexivity.
  - intros (t & H). unfold interp_new in H. destruct (Nat.eqb_spec (length xs) (length ys)); [assumption|discriminate].
Qed.
Print Assumptions interp_new_total.

Theorem interp_node : forall m xs ys t x y, interp_new xs ys = Some t -> NoDup xs ->
  pt xs ys x y -> interpolate m t x = Ret (Some y).
Proof.
  intros m xs ys t x y H N P.
  assert (L : length xs = length ys) by (apply interp_new_total; eexists; exact H).
  rewrite interp_new_Some in H by assumption. injection H as <-.
  apply interpolate_node; [apply sorted_new; assumption|apply sort_In; exact P].
Qed.
Print Assumptions interp_node.

Lemma pt_In_x xs ys x y : pt xs ys x y -> In x xs.
Proof. apply in_combine_l. Qed.

Lemma interp_segment m xs ys t xl yl xr yr p : interp_new xs ys = Some t -> NoDup xs ->
  pt xs ys xl yl -> pt xs ys xr yr -> neighbours xs xl xr -> xl < p < xr ->
  interpolate m t p = Ret (Some (segment m xl xr yl yr p)).
Proof.
  intros H N Pl Pr [L Nb] Hp.
  assert (E : length xs = length ys) by (apply interp_new_total; eexists; exact H).
  rewrite interp_new_Some in H by assumption. injection H as <-.
  pose proof (sorted_new xs ys E N) as S.
  destruct (neighbours_split (sort_pts (combine xs ys)) (xl, yl) (xr, yr)) as (l1 & l2 & Sp).
  - assumption.
  - apply sort_In; assumption.
  - apply sort_In; assumption.
  - exact L.
  - intros q Hq. apply (proj1 (sort_In _ _)) in Hq. apply Nb. destruct q as [x y]. apply in_combine_l in Hq. exact Hq.
  - rewrite Sp in S |- *. rewrite interpolate_between; [reflexivity|assumption|assumption].
Qed.

(** on the chord: the three points are collinear, and the value is between the ordinates *)
Theorem interp_linear_chord : forall xs ys t xl yl xr yr p, interp_new xs ys = Some t -> NoDup xs ->
  pt xs ys xl yl -> pt xs ys xr yr -> neighbours xs xl xr -> xl < p < xr ->
  exists v, interpolate Linear t p = Ret (Some v) /\
    (v - yl) * (xr - xl) = (yr - yl) * (p - xl) /\
    Rmin yl yr <= v <= Rmax yl yr.
Proof.
  intros xs ys t xl yl xr yr p H N Pl Pr Nb Hp.
  exists (segment Linear xl xr yl yr p).
  split; [eapply interp_segment; eassumption|].
  assert (E : (segment Linear xl xr yl yr p - yl) * (xr - xl) = (yr - yl) * (p - xl)).
  { unfold segment. field. lra. }
  split; [exact E|].
  assert (W : 0 <= (p - xl) / (xr - xl) <= 1).
  { split; [apply Rmult_le_pos; [lra|left; apply Rinv_0_lt_compat; lra]|].
    apply (Rmult_le_reg_r (xr - xl)); [lra|]. unfold Rdiv. rewrite Rmult_assoc, Rinv_l by lra. lra. }
  unfold segment. set (w := (p - xl) / (xr - xl)) in *. clearbody w.
  unfold Rmin, Rmax. destruct (Rle_dec yl yr); split; nra.
Qed.
Print Assumptions interp_linear_chord.

(** outside the range: an error value, never a number and never a panic *)
Theorem interp_outside : forall m xs ys t p, interp_new xs ys = Some t -> NoDup xs -> xs <> [] ->
  (forall x, In x xs -> p < x) \/ (forall x, In x xs -> x < p) ->
  interpolate m t p = Ret None.
Proof.
  intros m xs ys t p H N Ne P.
  assert (E : length xs = length ys) by (apply interp_new_total; eexists; exact H).
  rewrite interp_new_Some in H by assumption. injection H as <-.
  apply interpolate_outside.
  - apply sorted_new; assumption.
  - intros Z. pose proof (sort_pts_perm (combine xs ys)) as Pm. rewrite Z in Pm.
    apply Permutation_nil in Pm. destruct xs, ys; try discriminate; contradiction.
  - destruct P as [P|P]; [left|right]; intros [x y] Hq; apply (proj1 (sort_In _ _)) in Hq; apply in_combine_l in Hq; apply P; exact Hq.
Qed.
Print Assumptions interp_outside.

(** the three cases above are exhaustive *)
Theorem interp_cases : forall xs ys p, length xs = length ys -> NoDup xs -> xs <> [] ->
  (exists y, pt xs ys p y) \/
  (exists xl yl xr yr, pt xs ys xl yl /\ pt xs ys xr yr /\ neighbours xs xl xr /\ xl < p < xr) \/
  (forall x, In x xs -> p < x) \/ (forall x, In x xs -> x < p).
Proof.
  intros xs ys p E N Ne. pose proof (sorted_new xs ys E N) as S.
  assert (In_l : forall x, In x xs -> exists y, In (x, y) (sort_pts (combine xs ys))).
  { intros x Hx. rewrite <- (map_fst_combine xs ys E) in Hx. apply in_map_iff in Hx as ([x' y] & <- & Hq).
    exists y. apply sort_In. exact Hq. }
  destruct (Exists_dec (fun x => x <= p) xs ltac:(intros x; apply Rle_dec)) as [A|A].
  2: { right; right; left. intros x Hx. apply Rnot_le_lt. intros C. apply A. apply Exists_exists. exists x; split; assumption. }
  destruct (Exists_dec (fun x => p <= x) xs ltac:(intros x; apply Rle_dec)) as [B|B].
  2: { right; right; right. intros x Hx. apply Rnot_le_lt. intros C. apply B. apply Exists_exists. exists x; split; assumption. }
  apply Exists_exists in A as (a & Ha & La). apply Exists_exists in B as (b & Hb & Lb).
  apply In_l in Ha as (ya & Ha). apply In_l in Hb as (yb & Hb).
  destruct (locate _ p S) as [(y & Hy)|(l1 & q & r & l2 & Sp & Lq & Lr)].
  - exists (a, ya). split; assumption.
  - exists (b, yb). split; assumption.
  - left. exists y. apply sort_In. exact Hy.
  - right; left. destruct q as [xl yl], r as [xr yr]. exists xl, yl, xr, yr. cbn [fst snd] in *.
    split; [apply (proj1 (sort_In _ _)); rewrite Sp; apply in_or_app; right; left; reflexivity|].
    split; [apply (proj1 (sort_In _ _)); rewrite Sp; apply in_or_app; right; right; left; reflexivity|].
    split; [|split; assumption]. split; [lra|].
    intros x Hx [L1 L2]. apply In_l in Hx as (y & Hx). rewrite Sp in Hx, S.
    apply in_app_or in Hx. destruct Hx as [Hx|[Hx|[Hx|Hx]]].
    + pose proof (app_sorted_lt _ _ S (x, y) (xl, yl) Hx (or_introl eq_refl)) as L. simpl in L. lra.
    + injection Hx as ? ?. lra.
    + injection Hx as ? ?. lra.
    + change (l1 ++ (xl, yl) :: (xr, yr) :: l2) with (l1 ++ [(xl, yl); (xr, yr)] ++ l2) in S. rewrite app_assoc in S.
      pose proof (app_sorted_lt _ _ S (xr, yr) (x, y)) as L. simpl in L.
      assert (xr < x); [|lra]. apply L; [|assumption]. apply in_or_app. right. right. left. reflexivity.
Qed.
Print Assumptions interp_cases.

(** the order of the points does not matter *)
Theorem interp_order_irrelevant : forall xs ys xs' ys', length xs = length ys -> length xs' = length ys' ->
  NoDup xs -> Permutation (combine xs ys) (combine xs' ys') ->
  interp_new xs ys = interp_new xs' ys'.
Proof.
  intros xs ys xs' ys' E E' N P. rewrite !interp_new_Some by assumption. do 2 f_equal.
  apply sort_pts_set; [rewrite map_fst_combine by assumption; exact N|exact P].
Qed.
Print Assumptions interp_order_irrelevant.

(** an interpolator without points: every query panics *)
Theorem interp_empty_panics : forall m p, exists t, interp_new [] [] = Some t /\ interpolate m t p = Panic.
Proof. intros. eexists; split; reflexivity. Qed.
Print Assumptions interp_empty_panics.

(** piecewise-linear data are monotone: if the ordinates increase so does the interpolant *)
Lemma segment_linear_mono xl xr yl yr p q : xl < xr -> yl <= yr -> p <= q ->
  segment Linear xl xr yl yr p <= segment Linear xl xr yl yr q.
Proof.
  intros L Y H. unfold segment. apply Rplus_le_compat_l. apply Rmult_le_compat_l; [lra|].
  apply Rmult_le_compat_r; [left; apply Rinv_0_lt_compat; lra|lra].
Qed.

Theorem interp_linear_monotone : forall xs ys t p q u v, interp_new xs ys = Some t -> NoDup xs ->
  (forall x y x' y', pt xs ys x y -> pt xs ys x' y' -> x <= x' -> y <= y') ->
  p <= q -> interpolate Linear t p = Ret (Some u) -> interpolate Linear t q = Ret (Some v) -> u <= v.
Proof.
  intros xs ys t p q u v H N M Hpq Hu Hv.
  assert (E : length xs = length ys) by (apply interp_new_total; eexists; exact H).
  assert (Ne : xs <> []).
  { intros ->. destruct ys; [|discriminate]. injection H as <-. discriminate Hu. }
  assert (Chord : forall p u, interpolate Linear t p = Ret (Some u) ->
    exists xl yl xr yr, pt xs ys xl yl /\ pt xs ys xr yr /\ xl <= p <= xr /\ yl <= u <= yr /\
      (forall x, In x xs -> ~ (xl < x < xr)) /\
      ((xl = xr /\ u = yl) \/ (xl < p < xr /\ u = segment Linear xl xr yl yr p))).
  { clear p q u v Hu Hv Hpq. intros p u Hu. destruct (interp_cases xs ys p E N Ne) as [(y & Hy)|[(xl & yl & xr & yr & Pl & Pr & Nb & L)|O]].
    - rewrite (interp_node _ _ _ _ _ _ H N Hy) in Hu. injection Hu as <-.
      exists p, y, p, y. repeat (split; [assumption || lra|]). split; [intros; lra|]. left; split; reflexivity.
    - destruct (interp_linear_chord _ _ _ _ _ _ _ _ H N Pl Pr Nb L) as (w & Hw & _ & B).
      rewrite Hu in Hw. injection Hw as <-.
      rewrite (interp_segment _ _ _ _ _ _ _ _ _ H N Pl Pr Nb L) in Hu. injection Hu as Hu.
      assert (yl <= yr) by (eapply M; [eassumption..|lra]).
      rewrite Rmin_left, Rmax_right in B by assumption.
      exists xl, yl, xr, yr. repeat (split; [assumption || lra|]). split; [apply Nb|].
      right. split; [assumption|symmetry; assumption].
    - rewrite (interp_outside _ _ _ _ _ H N Ne O) in Hu. discriminate. }
  destruct (Chord p u Hu) as (xl & yl & xr & yr & Pl & Pr & L & B & Nb & C).
  destruct (Chord q v Hv) as (xl' & yl' & xr' & yr' & Pl' & Pr' & L' & B' & Nb' & C').
  destruct (Rle_lt_dec xr xl') as [D|D].
  - pose proof (M _ _ _ _ Pr Pl' D). lra.
  - (* the two brackets coincide *)
    assert (xl' <= xl).
    { apply Rnot_lt_le. intros X. apply (Nb xl'); [eapply pt_In_x; eassumption|lra]. }
    destruct C as [[-> ->]|[C ->]]; destruct C' as [[E' ->]|[C' ->]].
    + lra.
    + exfalso. apply (Nb' xr); [eapply pt_In_x; eassumption|lra].
    + subst xr'. assert (xl' = q) by lra. subst. exfalso. lra.
    + assert (xr <= xr').
      { apply Rnot_lt_le. intros X. apply (Nb xr'); [eapply pt_In_x; eassumption|lra]. }
      assert (xr' <= xr).
      { apply Rnot_lt_le. intros X. apply (Nb' xr); [eapply pt_In_x; eassumption|lra]. }
      assert (xl <= xl').
      { apply Rnot_lt_le. intros X. apply (Nb' xl); [eapply pt_In_x; eassumption|lra]. }
      assert (xl = xl') by lra. assert (xr = xr') by lra. subst xl' xr'.
      assert (U : forall x y y', pt xs ys x y -> pt xs ys x y' -> y = y').
      { intros x y y' A1 A2. pose proof (interp_node Linear _ _ _ _ _ H N A1) as X1.
        rewrite (interp_node Linear _ _ _ _ _ H N A2) in X1. injection X1; auto. }
      rewrite (U _ _ _ Pl' Pl), (U _ _ _ Pr' Pr). apply segment_linear_mono; [lra| |assumption].
      eapply M; [exact Pl|exact Pr|lra].
Qed.
Print Assumptions interp_linear_monotone.

(** at an integer type the division truncates: strictly inside a segment the
    result is the left ordinate, so the chord property fails *)
Theorem interp_integer_is_left_node : forall xl xr yl yr p, (xl < p < xr)%Z -> segment_int xl xr yl yr p = yl.
Proof. intros xl xr yl yr p H. unfold segment_int. rewrite Z.quot_small by lia. lia. Qed.
Print Assumptions interp_integer_is_left_node.
Theorem interp_integer_chord_refuted : exists xl xr yl yr p, (xl < p < xr)%Z /\
  ((segment_int xl xr yl yr p - yl) * (xr - xl) <> (yr - yl) * (p - xl))%Z.
Proof. exists 0%Z, 2%Z, 0%Z, 10%Z, 1%Z. split; [lia|]. discriminate. Qed.
Print Assumptions interp_integer_chord_refuted.

(** the hypotheses hold of an unsorted list of points *)
Example interp_case : let xs := [3; 1; 2] in let ys := [30; 10; 20] in
  (exists t, interp_new xs ys = Some t) /\ NoDup xs /\ pt xs ys 1 10 /\ pt xs ys 2 20 /\ neighbours xs 1 2.
Proof.
  simpl. split; [apply interp_new_total; reflexivity|]. split.
  { repeat constructor; simpl; intuition lra. }
  split; [right; left; reflexivity|]. split; [right; right; left; reflexivity|].
  split; [lra|]. intros x [<-|[<-|[<-|[]]]]; lra.
Qed.
Example interp_case_value : exists t, interp_new [3; 1; 2] [30; 10; 20] = Some t /\
  interpolate Linear t (3/2) = Ret (Some 15).
Proof.
  destruct interp_case as ((t & T) & N & P1 & P2 & Nb). exists t. split; [exact T|].
  rewrite (interp_segment _ _ _ _ _ _ _ _ (3/2) T N P1 P2 Nb ltac:(lra)). unfold segment. do 2 f_equal. field.
Qed.

(** ** C19 *)

(** with or without repeated abscissae *)
Theorem add_point_rebuild : forall xs ys t x y, interp_new xs ys = Some t ->
  exists t', add_point t (x, y) = Ret t' /\ interp_new (x :: xs) (y :: ys) = Some t'.
Proof.
  intros xs ys t x y H.
  assert (E : length xs = length ys) by (apply interp_new_total; eexists; exact H).
  rewrite interp_new_Some in H by assumption. injection H as <-.
  rewrite add_point_of_pts. eexists; split; [reflexivity|].
  rewrite interp_new_Some by (simpl; rewrite E; reflexivity). reflexivity.
Qed.
Print Assumptions add_point_rebuild.

(** any sequence of additions equals construction from all the points *)
Fixpoint add_points (t : interp) (l : list (R * R)) : res interp :=
  match l with [] => Ret t | p :: l' => let! t' := add_point t p in add_points t' l' end.
Theorem add_points_rebuild : forall l xs ys t, interp_new xs ys = Some t ->
  NoDup (xs ++ map fst l) ->
  exists t', add_points t l = Ret t' /\ interp_new (xs ++ map fst l) (ys ++ map snd l) = Some t'.
Proof.
  induction l as [|[x y] l IH]; intros xs ys t H N.
  - exists t. rewrite !app_nil_r. split; [reflexivity|exact H].
  - assert (E : length xs = length ys) by (apply interp_new_total; eexists; exact H).
    destruct (add_point_rebuild _ _ _ x y H) as (t1 & A & B).
    assert (N1 : NoDup ((x :: xs) ++ map fst l)).
    { eapply Permutation_NoDup; [|exact N]. simpl. symmetry. apply Permutation_middle. }
    destruct (IH _ _ _ B N1) as (t' & C & D). exists t'. split.
    + simpl. rewrite A. simpl. exact C.
    + rewrite <- D. apply interp_order_irrelevant.
      * rewrite !app_length, !map_length. simpl. lia.
      * simpl. rewrite !app_length, !map_length. lia.
      * exact N.
      * assert (CA : forall (a : list R) (b : list R) c d, length a = length b -> combine (a ++ c) (b ++ d) = combine a b ++ combine c d).
        { clear. induction a as [|u a IH]; intros [|v b] c d H; try discriminate; [reflexivity|].
          simpl. f_equal. apply IH. injection H; auto. }
        rewrite !CA by (simpl; lia). simpl. symmetry. apply Permutation_middle.
Qed.
Print Assumptions add_points_rebuild.

(** a new point changes nothing outside the segment it splits *)
Theorem add_point_local : forall m xs ys t t' x y p, interp_new xs ys = Some t -> NoDup (x :: xs) ->
  add_point t (x, y) = Ret t' ->
  In p xs \/ (exists xl yl xr yr, pt xs ys xl yl /\ pt xs ys xr yr /\ neighbours xs xl xr /\ xl < p < xr /\ ~ (xl < x < xr)) ->
  interpolate m t' p = interpolate m t p.
Proof.
  intros m xs ys t t' x y p H N A Hp.
  destruct (add_point_rebuild _ _ _ x y H) as (t1 & A1 & B). rewrite A in A1. injection A1 as <-.
  assert (E : length xs = length ys) by (apply interp_new_total; eexists; exact H).
  inversion N as [|? ? N1 N2]; subst.
  destruct Hp as [Hp|(xl & yl & xr & yr & Pl & Pr & [Ln Nb] & L & O)].
  - rewrite <- (map_fst_combine xs ys E) in Hp. apply in_map_iff in Hp as ([p' v] & E' & Hq). simpl in E'. subst p'.
    rewrite (interp_node m _ _ _ _ _ H N2 Hq).
    apply (interp_node m _ _ _ _ _ B N). right. exact Hq.
  - rewrite (interp_segment m _ _ _ _ _ _ _ _ H N2 Pl Pr (conj Ln Nb) L).
    apply (interp_segment m _ _ _ _ _ _ _ _ B N); [right; exact Pl|right; exact Pr| |exact L].
    split; [exact Ln|]. intros z [<-|Hz]; [exact O|apply Nb; exact Hz].
Qed.
Print Assumptions add_point_local.

Example add_point_case : let xs := [1; 3; 5] in NoDup (2 :: xs) /\ neighbours xs 3 5 /\ ~ (3 < 2 < 5).
Proof.
  simpl. split; [repeat constructor; simpl; intuition lra|]. split; [|lra].
  split; [lra|]. intros z [<-|[<-|[<-|[]]]]; lra.
Qed.

(** ** C20 *)

Theorem interp_exponential_loglinear : forall xs ys t xl yl xr yr p, interp_new xs ys = Some t -> NoDup xs ->
  pt xs ys xl yl -> pt xs ys xr yr -> neighbours xs xl xr -> xl < p < xr -> 0 < yl -> 0 < yr ->
  exists v, interpolate Exponential t p = Ret (Some v) /\ 0 < v /\
    (ln v - ln yl) * (xr - xl) = (ln yr - ln yl) * (p - xl) /\
    Rmin yl yr <= v <= Rmax yl yr.
Proof.
  intros xs ys t xl yl xr yr p H N Pl Pr Nb Hp Yl Yr.
  exists (segment Exponential xl xr yl yr p). split; [eapply interp_segment; eassumption|].
  assert (V : 0 < segment Exponential xl xr yl yr p).
  { unfold segment. apply Rmult_lt_0_compat; apply exp_pos. }
  assert (E : (ln (segment Exponential xl xr yl yr p) - ln yl) * (xr - xl) = (ln yr - ln yl) * (p - xl)).
  { unfold segment. rewrite ln_mult by apply exp_pos. unfold Rpower. rewrite !ln_exp. field. lra. }
  split; [exact V|]. split; [exact E|].
  assert (L : forall a b, 0 < a -> 0 < b -> ln a <= ln b -> a <= b).
  { intros a b A B [X|X]; [left; apply ln_lt_inv; assumption|right; apply ln_inv; assumption]. }
  assert (M : forall a b, 0 < a -> a <= b -> ln a <= ln b).
  { intros a b A [X|X]; [left; apply ln_increasing; assumption|subst; right; reflexivity]. }
  set (v := segment Exponential xl xr yl yr p) in *. clearbody v.
  unfold Rmin, Rmax. destruct (Rle_dec yl yr) as [Y|Y].
  - pose proof (M _ _ Yl Y). split; apply L; try assumption; nra.
  - assert (Y' : yr <= yl) by lra. pose proof (M _ _ Yr Y'). split; apply L; try assumption; nra.
Qed.
Print Assumptions interp_exponential_loglinear.

(** the logarithm of the exponential interpolant is the linear interpolant of
    the logarithms, at every query *)
Theorem interp_exponential_log : forall xs ys t u p, NoDup xs -> xs <> [] -> (forall y, In y ys -> 0 < y) ->
  interp_new xs ys = Some t -> interp_new xs (map ln ys) = Some u ->
  rmap (option_map ln) (interpolate Exponential t p) = interpolate Linear u p.
Proof.
  intros xs ys t u p N Ne Pos H U.
  assert (E : length xs = length ys) by (apply interp_new_total; eexists; exact H).
  assert (PL : forall x y, pt xs ys x y -> pt xs (map ln ys) x (ln y)).
  { unfold pt. clear. revert ys. induction xs as [|a l IH]; intros [|b ys] x y Hp; try contradiction.
    simpl in *. destruct Hp as [Hp|Hp]; [left; congruence|right; auto]. }
  destruct (interp_cases xs ys p E N Ne) as [(y & Hy)|[(xl & yl & xr & yr & Pl & Pr & Nb & L)|O]].
  - rewrite (interp_node _ _ _ _ _ _ H N Hy), (interp_node _ _ _ _ _ _ U N (PL _ _ Hy)). reflexivity.
  - assert (Yl : 0 < yl) by (apply Pos; eapply in_combine_r; exact Pl).
    assert (Yr : 0 < yr) by (apply Pos; eapply in_combine_r; exact Pr).
    destruct (interp_exponential_loglinear _ _ _ _ _ _ _ _ H N Pl Pr Nb L Yl Yr) as (v & V & _ & Ev & _).
    destruct (interp_linear_chord _ _ _ _ _ _ _ _ U N (PL _ _ Pl) (PL _ _ Pr) Nb L) as (w & W & Ew & _).
    rewrite V, W. simpl. do 2 f_equal. apply Rplus_eq_reg_r with (- ln yl).
    apply Rmult_eq_reg_r with (xr - xl); [|lra]. unfold Rminus in *. lra.
  - rewrite (interp_outside _ _ _ _ _ H N Ne O), (interp_outside _ _ _ _ _ U N Ne O). reflexivity.
Qed.
Print Assumptions interp_exponential_log.

Example interp_exponential_case : exists t, interp_new [2; 1] [4; 1] = Some t /\
  interpolate Exponential t (3/2) = Ret (Some 2).
Proof.
  destruct (proj1 (interp_new_total [2; 1] [4; 1]) eq_refl) as (t & T). exists t. split; [exact T|].
  assert (N : NoDup [2; 1]) by (repeat constructor; simpl; intuition lra).
  rewrite (interp_segment Exponential _ _ _ 1 1 2 4 _ T N); [|right; left; reflexivity|left; reflexivity| |lra].
  - unfold segment, Rpower. do 2 f_equal. rewrite ln_1, Rmult_0_r, exp_0, Rmult_1_r.
    replace ((3 / 2 - 1) / (2 - 1)) with (/2) by field.
    replace 4 with (2 * 2) by ring. rewrite ln_mult by lra.
    replace (/ 2 * (ln 2 + ln 2)) with (ln 2) by field. apply exp_ln. lra.
  - split; [lra|]. intros x [<-|[<-|[]]]; lra.
Qed.
