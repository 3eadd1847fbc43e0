(** Proofs about interpolators. *)
From Coq Require Import Reals List Bool ZArith Lra Lia Sorted Permutation.
From Verif Require Import Res InterpModel.
Import ListNotations.
Open Scope R_scope.

Lemma Rltb_spec a b : reflect (a < b) (Rltb a b).
Proof. unfold Rltb. destruct (Rlt_dec a b); constructor; assumption. Qed.
Lemma Rleb_spec a b : reflect (a <= b) (Rleb a b).
Proof. unfold Rleb. destruct (Rle_dec a b); constructor; assumption. Qed.
Lemma Reqb_spec a b : reflect (a = b) (Reqb a b).
Proof. unfold Reqb. destruct (Req_EM_T a b); constructor; assumption. Qed.

Definition lt_pt (a b : R * R) : Prop := fst a < fst b.
Definition le_pt (a b : R * R) : Prop := fst a <= fst b.

(** ** Sorting *)

Lemma insert_pt_perm p l : Permutation (insert_pt p l) (p :: l).
Proof.
  induction l as [|q l IH]; simpl; [reflexivity|]. destruct (Rleb (fst p) (fst q)); [reflexivity|].
  rewrite IH. apply perm_swap.
Qed.
Lemma sort_pts_perm l : Permutation (sort_pts l) l.
Proof. induction l as [|p l IH]; simpl; [reflexivity|]. rewrite insert_pt_perm, IH. reflexivity. Qed.

Lemma insert_pt_sorted p l : StronglySorted le_pt l -> StronglySorted le_pt (insert_pt p l).
Proof.
  induction 1 as [|q l S IH F]; simpl; [repeat constructor|].
  destruct (Rleb_spec (fst p) (fst q)) as [H|H].
  - constructor; [constructor; assumption|]. constructor; [exact H|].
    eapply Forall_impl; [|exact F]. unfold le_pt. intros a Ha. lra.
  - constructor; [assumption|]. apply Forall_forall. intros x Hx.
    apply (Permutation_in _ (insert_pt_perm p l)) in Hx. destruct Hx as [<-|Hx].
    + unfold le_pt. lra.
    + rewrite Forall_forall in F. apply F; assumption.
Qed.
Lemma sort_pts_sorted l : StronglySorted le_pt (sort_pts l).
Proof. induction l as [|p l IH]; simpl; [constructor|]. apply insert_pt_sorted; assumption. Qed.

Lemma sorted_strict l : StronglySorted le_pt l -> NoDup (map fst l) -> StronglySorted lt_pt l.
Proof.
  induction 1 as [|p l S IH F]; simpl; intros N; [constructor|]. inversion N as [|? ? N1 N2]; subst.
  constructor; [auto|]. apply Forall_forall. intros q Hq. rewrite Forall_forall in F. specialize (F q Hq).
  unfold le_pt in F. unfold lt_pt. destruct (Rle_lt_or_eq_dec _ _ F) as [L|E]; [assumption|].
  exfalso. apply N1. rewrite E. apply in_map; assumption.
Qed.

Lemma strict_unique l1 : forall l2, StronglySorted lt_pt l1 -> StronglySorted lt_pt l2 ->
  (forall x, In x l1 <-> In x l2) -> l1 = l2.
Proof.
  induction l1 as [|a l1 IH]; intros [|b l2] S1 S2 H.
  - reflexivity.
  - exfalso. apply (proj2 (H b)). left; reflexivity.
  - exfalso. apply (proj1 (H a)). left; reflexivity.
  - inversion S1 as [|? ? S1' F1]; inversion S2 as [|? ? S2' F2]; subst.
    rewrite Forall_forall in F1, F2. unfold lt_pt in F1, F2.
    assert (a = b).
    { destruct (proj1 (H a) (or_introl eq_refl)) as [E|E]; [auto|].
      destruct (proj2 (H b) (or_introl eq_refl)) as [E'|E']; [auto|].
      apply F2 in E. apply F1 in E'. lra. }
    subst b. f_equal. apply IH; try assumption. intros x. split; intros Hx.
    + destruct (proj1 (H x) (or_intror Hx)) as [E|E]; [|assumption].
      subst x. apply F1 in Hx. lra.
    + destruct (proj2 (H x) (or_intror Hx)) as [E|E]; [|assumption].
      subst x. apply F2 in Hx. lra.
Qed.

Lemma sort_pts_set l1 l2 : NoDup (map fst l1) -> Permutation l1 l2 -> sort_pts l1 = sort_pts l2.
Proof.
  intros N P.
  assert (N2 : NoDup (map fst l2)) by (eapply Permutation_NoDup; [apply Permutation_map; exact P|exact N]).
  apply strict_unique.
  - apply sorted_strict; [apply sort_pts_sorted|].
    eapply Permutation_NoDup; [apply Permutation_map; symmetry; apply sort_pts_perm|exact N].
  - apply sorted_strict; [apply sort_pts_sorted|].
    eapply Permutation_NoDup; [apply Permutation_map; symmetry; apply sort_pts_perm|exact N2].
  - intros x. split; intros H.
    + eapply Permutation_in; [symmetry; apply sort_pts_perm|]. eapply Permutation_in; [exact P|].
      eapply Permutation_in; [apply sort_pts_perm|exact H].
    + eapply Permutation_in; [symmetry; apply sort_pts_perm|]. eapply Permutation_in; [symmetry; exact P|].
      eapply Permutation_in; [apply sort_pts_perm|exact H].
Qed.

(** ** Searching *)

Lemma partition_point_split {A} (p : A -> bool) l : exists l1 l2, l = l1 ++ l2 /\
  partition_point p l = length l1 /\ Forall (fun a => p a = true) l1 /\
  match l2 with [] => True | b :: _ => p b = false end.
Proof.
  induction l as [|a l (l1 & l2 & E & L & F & H)]; simpl.
  - exists [], []. repeat split. constructor.
  - destruct (p a) eqn:Pa.
    + exists (a :: l1), l2. subst l. rewrite L. repeat split; auto.
    + exists [], (a :: l). repeat split; auto.
Qed.

Lemma find_index_Some p l i : find_index p l = Some i -> nth_error l i = Some p.
Proof.
  revert i. induction l as [|a l IH]; intros i H; simpl in H; [discriminate|].
  destruct (Reqb_spec a p) as [->|]; [injection H as <-; reflexivity|].
  destruct (find_index p l) as [j|]; [|discriminate]. injection H as <-. simpl. auto.
Qed.
Lemma find_index_None p l : find_index p l = None <-> ~ In p l.
Proof.
  induction l as [|a l IH]; simpl; [tauto|].
  destruct (Reqb_spec a p) as [E|E].
  - split; [discriminate|]. intros H. exfalso. apply H. left. assumption.
  - destruct (find_index p l) as [j|].
    + split; [discriminate|]. intros H. exfalso. destruct IH as [_ IH]. discriminate IH. tauto.
    + split; [|reflexivity]. intros _ [H|H]; [contradiction|]. apply IH; auto.
Qed.

(** ** Interpolation over a strictly sorted list of points *)

Definition of_pts (l : list (R * R)) : interp := Interp (map fst l) (map snd l).

Lemma range_of_pts a l : range (of_pts (a :: l)) = Ret (fst a, fst (last l a)).
Proof.
  unfold range, of_pts. cbn [xs map hd_error unwrap bind]. 
  assert (H : hd_error (rev (map fst (a :: l))) = Some (fst (last l a))).
  { rewrite <- map_rev. assert (K : forall m : list (R*R), m <> [] -> forall d, hd_error (rev m) = Some (last m d)).
    { clear. intros m. induction m as [|x m IH] using rev_ind; intros H d; [contradiction|].
      rewrite rev_app_distr, last_last. reflexivity. }
    destruct (rev (a :: l)) as [|q r] eqn:E.
    - apply (f_equal (@length _)) in E. rewrite rev_length in E. discriminate.
    - assert (hd_error (rev (a :: l)) = Some (last (a :: l) a)) as K' by (apply K; discriminate).
      rewrite E in K'. simpl in K'. injection K' as ->. simpl.
      destruct l; reflexivity. }
  change (fst a :: map fst l) with (map fst (a :: l)). rewrite H. reflexivity.
Qed.

Lemma range_empty : range (of_pts []) = Panic.
Proof. reflexivity. Qed.

Lemma sorted_le_last l : forall a, StronglySorted lt_pt (a :: l) ->
  forall q, In q (a :: l) -> fst q <= fst (last l a).
Proof.
  induction l as [|b l IH]; intros a S q Hq.
  - destruct Hq as [<-|[]]. simpl. lra.
  - inversion S as [|? ? S' F]; subst.
    assert (E : last (b :: l) a = last l b) by (destruct l; [reflexivity|]; simpl; clear; revert b p; induction l; intros; [reflexivity|]; simpl; apply IHl; exact p).
    rewrite E. destruct Hq as [<-|Hq]; [|apply IH; assumption].
    rewrite Forall_forall in F. pose proof (F b (or_introl eq_refl)) as L. unfold lt_pt in L.
    pose proof (IH b S' b (or_introl eq_refl)). lra.
Qed.

Lemma last_In {A} (l : list A) a : In (last l a) (a :: l).
Proof.
  revert a. induction l as [|b l IH]; intros a; [left; reflexivity|].
  right. destruct l as [|c l]; [left; reflexivity|]. change (last (b :: c :: l) a) with (last (c :: l) a).
  specialize (IH b). replace (last (c :: l) a) with (last (c :: l) b); [assumption|].
  clear. revert c. induction l as [|d l IH]; intros c; [reflexivity|]. apply (IH d).
Qed.

Lemma sorted_ge_first l a : StronglySorted lt_pt (a :: l) -> forall q, In q (a :: l) -> fst a <= fst q.
Proof.
  intros S q [<-|H]; [lra|]. inversion S as [|? ? _ F]; subst. rewrite Forall_forall in F.
  specialize (F q H). unfold lt_pt in F. lra.
Qed.

Lemma interpolate_outside m l p : StronglySorted lt_pt l -> l <> [] ->
  (forall q, In q l -> p < fst q) \/ (forall q, In q l -> fst q < p) ->
  interpolate m (of_pts l) p = Ret None.
Proof.
  intros S N H. destruct l as [|a l]; [contradiction|]. unfold interpolate. rewrite range_of_pts. cbn [bind fst snd].
  destruct H as [H|H].
  - destruct (Rltb_spec p (fst a)) as [L|L]; [reflexivity|]. exfalso. apply L, H. left; reflexivity.
  - destruct (Rltb_spec (fst (last l a)) p) as [L|L]; [rewrite orb_true_r; reflexivity|].
    exfalso. apply L, H. apply last_In.
Qed.

Lemma in_range_false l a p : StronglySorted lt_pt (a :: l) ->
  (exists q, In q (a :: l) /\ fst q <= p) -> (exists q, In q (a :: l) /\ p <= fst q) ->
  Rltb p (fst a) || Rltb (fst (last l a)) p = false.
Proof.
  intros S (q & Hq & Lq) (r & Hr & Lr). apply orb_false_iff. split.
  - destruct (Rltb_spec p (fst a)); [|reflexivity]. pose proof (sorted_ge_first l a S q Hq). lra.
  - destruct (Rltb_spec (fst (last l a)) p); [|reflexivity]. pose proof (sorted_le_last l a S r Hr). lra.
Qed.

Lemma interpolate_node m l p y : StronglySorted lt_pt l -> In (p, y) l ->
  interpolate m (of_pts l) p = Ret (Some y).
Proof.
  intros S H. destruct l as [|a l]; [destruct H|]. unfold interpolate. rewrite range_of_pts. cbn [bind fst snd].
  rewrite in_range_false; [|assumption|exists (p, y); split; [assumption|simpl; lra]..].
  destruct (find_index p (xs (of_pts (a :: l)))) as [i|] eqn:F.
  - apply find_index_Some in F. unfold of_pts in F. cbn [xs] in F.
    rewrite nth_error_map in F. destruct (nth_error (a :: l) i) as [q|] eqn:Q; [|discriminate].
    simpl in F. injection F as F.
    assert (q = (p, y)).
    { clear - S H Q F. revert i Q. generalize dependent (a :: l). intros m' S H. induction S as [|b m' S' IH Fm]; [destruct H|].
      intros i Q. rewrite Forall_forall in Fm. unfold lt_pt in Fm. destruct i as [|i]; simpl in Q.
      - injection Q as ->. destruct H as [H|H]; [assumption|]. apply Fm in H. simpl in H. lra.
      - destruct H as [H|H]; [|eapply IH; eassumption]. subst b. apply nth_error_In in Q. apply Fm in Q. simpl in Q. lra. }
    subst q. unfold index, of_pts. cbn [ys]. rewrite nth_error_map, Q. reflexivity.
  - apply find_index_None in F. exfalso. apply F. apply (in_map fst) in H. exact H.
Qed.

Lemma app_sorted_lt l1 l2 : StronglySorted lt_pt (l1 ++ l2) ->
  forall a b, In a l1 -> In b l2 -> fst a < fst b.
Proof.
  induction l1 as [|c l1 IH]; intros S a b Ha Hb; [destruct Ha|].
  simpl in S. inversion S as [|? ? S' F]; subst. destruct Ha as [<-|Ha].
  - rewrite Forall_forall in F. apply F. apply in_or_app. right; assumption.
  - apply IH; assumption.
Qed.

Lemma interpolate_between m l1 a b l2 p : StronglySorted lt_pt (l1 ++ a :: b :: l2) ->
  fst a < p < fst b ->
  interpolate m (of_pts (l1 ++ a :: b :: l2)) p
  = Ret (Some (segment m (fst a) (fst b) (snd a) (snd b) p)).
Proof.
  intros S [La Lb]. set (l := l1 ++ a :: b :: l2) in *.
  assert (Ha : In a l) by (apply in_or_app; right; left; reflexivity).
  assert (Hb : In b l) by (apply in_or_app; right; right; left; reflexivity).
  assert (Hlt : forall q, In q l1 -> fst q < fst a).
  { intros q Hq. eapply app_sorted_lt; [exact S|exact Hq|left; reflexivity]. }
  assert (Hgt : forall q, In q l2 -> fst b < fst q).
  { intros q Hq. assert (S' : StronglySorted lt_pt ((l1 ++ [a; b]) ++ l2)) by (rewrite <- app_assoc; exact S).
    eapply app_sorted_lt; [exact S'| |exact Hq]. apply in_or_app. right. right. left. reflexivity. }
  destruct l as [|c l'] eqn:El; [destruct Ha|]. unfold interpolate. rewrite range_of_pts. cbn [bind fst snd].
  rewrite in_range_false; [|assumption|exists a; split; [assumption|lra]|exists b; split; [assumption|lra]].
  rewrite <- El in *. clear c l' El. subst l.
  destruct (find_index p (xs (of_pts (l1 ++ a :: b :: l2)))) as [i|] eqn:F.
  { exfalso. apply find_index_Some, nth_error_In in F. unfold of_pts in F. cbn [xs] in F.
    apply in_map_iff in F as (q & E & Hq). apply in_app_or in Hq. destruct Hq as [Hq|[<-|[<-|Hq]]]; try lra.
    - apply Hlt in Hq. lra.
    - apply Hgt in Hq. lra. }
  assert (PP : partition_point (fun x => Rltb x p) (xs (of_pts (l1 ++ a :: b :: l2))) = Datatypes.S (length l1)).
  { unfold of_pts. cbn [xs]. clear S F Ha Hb Hgt.
    induction l1 as [|c l1 IH]; cbn [app map partition_point length].
    - destruct (Rltb_spec (fst a) p); [|lra]. destruct (Rltb_spec (fst b) p); [lra|]. reflexivity.
    - destruct (Rltb_spec (fst c) p) as [L|L].
      + rewrite IH; [reflexivity|]. intros q Hq. apply Hlt. right; assumption.
      + exfalso. apply L. specialize (Hlt c (or_introl eq_refl)). lra. }
  rewrite PP. unfold index, of_pts. cbn [xs ys].
  rewrite !nth_error_map, !nth_error_app2 by lia.
  rewrite Nat.sub_diag, Nat.sub_succ_l, Nat.sub_diag by lia. reflexivity.
Qed.

(** every query inside the range is at a node or between two neighbours *)
Lemma locate l p : StronglySorted lt_pt l ->
  (exists q, In q l /\ fst q <= p) -> (exists q, In q l /\ p <= fst q) ->
  (exists y, In (p, y) l) \/ exists l1 a b l2, l = l1 ++ a :: b :: l2 /\ fst a < p < fst b.
Proof.
  induction 1 as [|c l S IH F]; intros (q & Hq & Lq) (r & Hr & Lr); [destruct Hq|].
  rewrite Forall_forall in F. unfold lt_pt in F.
  destruct (Req_dec (fst c) p) as [E|E].
  { left. exists (snd c). left. subst p. destruct c; reflexivity. }
  assert (Lc : fst c < p).
  { destruct Hq as [<-|Hq]; [lra|]. specialize (F q Hq). lra. }
  assert (Hr' : In r l). { destruct Hr as [<-|Hr]; [lra|assumption]. }
  destruct l as [|d l]; [destruct Hr'|].
  destruct (Rle_lt_dec (fst d) p) as [Ld|Ld].
  - destruct IH as [(y & Hy)|(l1 & a & b & l2 & E' & L)].
    + exists d. split; [left; reflexivity|assumption].
    + exists r. split; assumption.
    + left. exists y. right. assumption.
    + right. exists (c :: l1), a, b, l2. split; [simpl; f_equal; assumption|assumption].
  - right. exists [], c, d, l. split; [reflexivity|lra].
Qed.

Lemma neighbours_split l a b : StronglySorted lt_pt l -> In a l -> In b l -> fst a < fst b ->
  (forall q, In q l -> ~ (fst a < fst q < fst b)) ->
  exists l1 l2, l = l1 ++ a :: b :: l2.
Proof.
  induction 1 as [|c l S IH F]; intros Ha Hb L N; [destruct Ha|].
  rewrite Forall_forall in F. unfold lt_pt in F. destruct Ha as [<-|Ha].
  - destruct Hb as [<-|Hb]; [lra|]. destruct l as [|d l]; [destruct Hb|].
    assert (d = b).
    { destruct Hb as [E|Hb]; [assumption|]. exfalso. apply (N d).
      - right; left; reflexivity.
      - split; [apply F; left; reflexivity|]. inversion S as [|? ? _ Fd]; subst. rewrite Forall_forall in Fd.
        apply Fd in Hb. exact Hb. }
    subst d. exists [], l. reflexivity.
  - destruct Hb as [<-|Hb].
    + apply F in Ha. lra.
    + destruct IH as (l1 & l2 & E); try assumption.
      * intros q Hq. apply N. right; assumption.
      * exists (c :: l1), l2. simpl. f_equal. assumption.
Qed.

(** ** Construction *)

Lemma interp_new_Some xs' ys' : length xs' = length ys' ->
  interp_new xs' ys' = Some (of_pts (sort_pts (combine xs' ys'))).
Proof. intros H. unfold interp_new. rewrite H, Nat.eqb_refl. reflexivity. Qed.

Lemma map_fst_combine {A B} (l1 : list A) : forall (l2 : list B), length l1 = length l2 -> map fst (combine l1 l2) = l1.
Proof. induction l1 as [|a l1 IH]; intros [|b l2] H; try discriminate; [reflexivity|]. simpl. f_equal. apply IH. injection H; auto. Qed.

Lemma sorted_new xs' ys' : length xs' = length ys' -> NoDup xs' ->
  StronglySorted lt_pt (sort_pts (combine xs' ys')).
Proof.
  intros L N. apply sorted_strict; [apply sort_pts_sorted|].
  eapply Permutation_NoDup; [apply Permutation_map; symmetry; apply sort_pts_perm|].
  rewrite map_fst_combine by assumption. exact N.
Qed.
Lemma sort_In l q : In q (sort_pts l) <-> In q l.
Proof.
  split; apply Permutation_in; [apply sort_pts_perm|symmetry; apply sort_pts_perm].
Qed.

(** ** add_point *)

Lemma vec_insert_map {A B} (f : A -> B) : forall i a l r,
  vec_insert i a l = Ret r -> vec_insert i (f a) (map f l) = Ret (map f r).
Proof.
  induction i as [|i IH]; intros a l r H; simpl in *.
  - injection H as <-. reflexivity.
  - destruct l as [|b l]; [discriminate|]. apply bind_Ret_inv in H as (x & Hx & H). injection H as <-.
    simpl. rewrite (IH _ _ _ Hx). reflexivity.
Qed.

Lemma insert_pt_index p l : vec_insert (partition_point (fun x => Rltb x (fst p)) (map fst l)) p l
  = Ret (insert_pt p l).
Proof.
  induction l as [|q l IH]; simpl; [reflexivity|].
  destruct (Rltb_spec (fst q) (fst p)) as [L|L], (Rleb_spec (fst p) (fst q)) as [L'|L']; try lra.
  - simpl. rewrite IH. reflexivity.
  - reflexivity.
Qed.

Lemma add_point_of_pts l p : add_point (of_pts l) p = Ret (of_pts (insert_pt p l)).
Proof.
  unfold add_point, of_pts. cbn [xs ys].
  rewrite (vec_insert_map fst _ _ _ _ (insert_pt_index p l)). cbn [bind].
  rewrite (vec_insert_map snd _ _ _ _ (insert_pt_index p l)). reflexivity.
Qed.
