(** C21: B-splines. *)
From Coq Require Import Reals List Bool ZArith Lra Lia Sorted Permutation.
From Verif Require Import Res InterpModel InterpProofs.
Import ListNotations.
Open Scope R_scope.

(** ** The basis as a real function of a monotone knot sequence *)

Section Basis.
Variable t : nat -> R.
Hypothesis mono : forall i j, (i <= j)%nat -> t i <= t j.
Variable x : R.

Definition wgt (i d : nat) : R :=
  if Reqb (t (i + S d)) (t i) then 0 else (x - t i) / (t (i + S d) - t i).
Fixpoint N (d i : nat) : R :=
  match d with
  | O => if Rleb (t i) x && Rltb x (t (i + 1)) then 1 else 0
  | S d' =>
      (if Reqb (t (i + d)) (t i) then 0 else (x - t i) / (t (i + d) - t i) * N d' i) +
      (if Reqb (t (i + d + 1)) (t (i + 1)) then 0
       else (t (i + d + 1) - x) / (t (i + d + 1) - t (i + 1)) * N d' (i + 1))
  end.

Lemma N_support d : forall i, x < t i \/ t (i + d + 1)%nat <= x -> N d i = 0.
Proof.
  induction d as [|d IH]; intros i H.
  - simpl. destruct (Rleb_spec (t i) x); [|reflexivity]. destruct (Rltb_spec x (t (i + 1)%nat)) as [L|]; [|reflexivity].
    replace (i + 0 + 1)%nat with (i + 1)%nat in H by lia. lra.
  - cbn [N]. rewrite (IH i), (IH (i + 1)%nat).
    + destruct (Reqb _ _), (Reqb _ _); ring.
    + destruct H as [H|H]; [left|right].
      * pose proof (mono i (i + 1) ltac:(lia)). lra.
      * replace (i + 1 + d + 1)%nat with (i + S d + 1)%nat by lia. exact H.
    + destruct H as [H|H]; [left; exact H|right].
      pose proof (mono (i + d + 1) (i + S d + 1) ltac:(lia)). lra.
Qed.

Lemma N_nonneg d : forall i, 0 <= N d i.
Proof.
  induction d as [|d IH]; intros i.
  - simpl. destruct (_ && _); lra.
  - cbn [N]. apply Rplus_le_le_0_compat.
    + destruct (Reqb_spec (t (i + S d)) (t i)) as [|Ne]; [lra|].
      pose proof (mono i (i + S d) ltac:(lia)).
      destruct (Rlt_dec x (t i)) as [L|L].
      * rewrite N_support by (left; exact L). lra.
      * apply Rmult_le_pos; [|apply IH]. apply Rmult_le_pos; [lra|]. left. apply Rinv_0_lt_compat. lra.
    + destruct (Reqb_spec (t (i + S d + 1)) (t (i + 1))) as [|Ne]; [lra|].
      pose proof (mono (i + 1) (i + S d + 1) ltac:(lia)).
      destruct (Rle_dec (t (i + S d + 1)%nat) x) as [L|L].
      * rewrite N_support; [lra|]. right. replace (i + 1 + d + 1)%nat with (i + S d + 1)%nat by lia. exact L.
      * apply Rmult_le_pos; [|apply IH]. apply Rmult_le_pos; [lra|]. left. apply Rinv_0_lt_compat. lra.
Qed.

Lemma N_rec d i : N (S d) i = wgt i d * N d i + (1 - wgt (i + 1) d) * N d (i + 1).
Proof.
  cbn [N]. unfold wgt. f_equal.
  - destruct (Reqb (t (i + S d)) (t i)); ring.
  - replace (i + 1 + S d)%nat with (i + S d + 1)%nat by lia.
    destruct (Reqb_spec (t (i + S d + 1)) (t (i + 1))) as [E|Ne].
    + rewrite (N_support d (i + 1)); [ring|].
      replace (i + 1 + d + 1)%nat with (i + S d + 1)%nat by lia. rewrite E. lra.
    + f_equal. field. lra.
Qed.

(** sum of [k] consecutive basis functions from index [a] *)
Fixpoint sumN (d a k : nat) : R :=
  match k with O => 0 | S k' => sumN d a k' + N d (a + k') end.

Lemma sumN_rec d a k : sumN (S d) a k = wgt a d * N d a - wgt (a + k) d * N d (a + k) + sumN d (a + 1) k.
Proof.
  induction k as [|k IH]; cbn [sumN].
  - rewrite Nat.add_0_r. ring.
  - rewrite IH, N_rec. replace (a + 1 + k)%nat with (a + k + 1)%nat by lia.
    replace (a + S k)%nat with (a + k + 1)%nat by lia. ring.
Qed.

Lemma sumN_one d : forall a k, t (a + d)%nat <= x -> x < t (a + k)%nat -> sumN d a k = 1.
Proof.
  induction d as [|d IH]; intros a k L U.
  - rewrite Nat.add_0_r in L. 
    assert (Z : forall k, x < t (a + k)%nat -> sumN 0 a k = 1).
    { clear k U. induction k as [|k IHk]; intros U.
      - rewrite Nat.add_0_r in U. lra.
      - cbn [sumN N]. replace (a + k + 1)%nat with (a + S k)%nat by lia.
        destruct (Rltb_spec x (t (a + S k))); [|lra].
        destruct (Rleb_spec (t (a + k)%nat) x) as [X|X]; simpl.
        + enough (sumN 0 a k = 0) by lra. clear IHk U.
          assert (G : forall m, (m <= k)%nat -> sumN 0 a m = 0).
          { induction m as [|m IHm]; intros Hm; [reflexivity|]. cbn [sumN N].
            rewrite IHm by lia. destruct (Rltb_spec x (t (a + m + 1))) as [Y|Y].
            - pose proof (mono (a + m + 1) (a + k) ltac:(lia)). lra.
            - rewrite andb_false_r. ring. }
          apply G. lia.
        + rewrite IHk by lra. ring. }
    apply Z. exact U.
  - rewrite sumN_rec. rewrite (N_support d a) by (right; replace (a + d + 1)%nat with (a + S d)%nat by lia; exact L).
    rewrite (N_support d (a + k)) by (left; exact U).
    destruct k as [|k].
    + rewrite Nat.add_0_r in U. pose proof (mono a (a + S d) ltac:(lia)). lra.
    + cbn [sumN]. replace (a + 1 + k)%nat with (a + S k)%nat by lia.
      rewrite (N_support d (a + S k)) by (left; exact U).
      rewrite Rmult_0_r, Rmult_0_r, Rminus_0_r, Rplus_0_l, Rplus_0_r. 
      destruct k as [|k].
      * (* a single function: impossible, x would be both sides *)
        pose proof (mono (a + 1) (a + S d) ltac:(lia)). lra.
      * apply IH.
        -- replace (a + 1 + d)%nat with (a + S d)%nat by lia. exact L.
        -- replace (a + 1 + S k)%nat with (a + S (S k))%nat by lia. exact U.
Qed.

(** at its own left knot a basis function of positive degree vanishes, when that
    knot is simple from the right *)
Lemma N_left_knot d i : x = t i -> t i < t (i + 1)%nat -> N (S d) i = 0.
Proof.
  intros E L. cbn [N]. 
  replace (if Reqb (t (i + S d)) (t i) then 0 else (x - t i) / (t (i + S d) - t i) * N d i) with 0.
  - rewrite (N_support d (i + 1)) by (left; lra). destruct (Reqb _ _); ring.
  - rewrite E. destruct (Reqb_spec (t (i + S d)) (t i)) as [|Ne]; [reflexivity|].
    replace (t i - t i) with 0 by ring. unfold Rdiv. ring.
Qed.

(** ** weighted sums *)
Fixpoint combN (d i : nat) (cps : list R) : R :=
  match cps with [] => 0 | c :: l => N d i * c + combN d (S i) l end.

Lemma sumN_shift d a k : sumN d a (S k) = N d a + sumN d (S a) k.
Proof.
  induction k as [|k IH]; [cbn [sumN]; rewrite Nat.add_0_r; ring|].
  change (sumN d a (S (S k))) with (sumN d a (S k) + N d (a + S k)). rewrite IH. cbn [sumN].
  replace (a + S k)%nat with (S a + k)%nat by lia. ring.
Qed.
Lemma combN_lower d lo cps : forall i, (forall c, In c cps -> lo <= c) ->
  lo * sumN d i (length cps) <= combN d i cps.
Proof.
  induction cps as [|c cps IH]; intros i H; [simpl; lra|].
  cbn [length combN]. rewrite sumN_shift. 
  pose proof (IH (S i) (fun c' Hc => H c' (or_intror Hc))). pose proof (N_nonneg d i).
  pose proof (H c (or_introl eq_refl)). nra.
Qed.
Lemma combN_upper d hi cps : forall i, (forall c, In c cps -> c <= hi) ->
  combN d i cps <= hi * sumN d i (length cps).
Proof.
  induction cps as [|c cps IH]; intros i H; [simpl; lra|].
  cbn [length combN]. rewrite sumN_shift. 
  pose proof (IH (S i) (fun c' Hc => H c' (or_intror Hc))). pose proof (N_nonneg d i).
  pose proof (H c (or_introl eq_refl)). nra.
Qed.
Lemma combN_zero d cps : forall i, (forall j, (i <= j < i + length cps)%nat -> N d j = 0) -> combN d i cps = 0.
Proof.
  induction cps as [|c cps IH]; intros i H; [reflexivity|]. cbn [combN]. rewrite H by (simpl; lia).
  rewrite IH; [ring|]. intros j Hj. apply H. simpl. lia.
Qed.
Lemma combN_app d l1 : forall l2 i, combN d i (l1 ++ l2) = combN d i l1 + combN d (i + length l1) l2.
Proof.
  induction l1 as [|c l1 IH]; intros l2 i; [simpl; rewrite Nat.add_0_r; ring|].
  simpl. rewrite IH. replace (S i + length l1)%nat with (i + S (length l1))%nat by lia. ring.
Qed.
End Basis.

(** ** The model computes these functions *)

(** the knot sequence, prolonged by its last entry *)
Definition knot (ks : list R) (i : nat) : R := nth i ks (last ks 0).

Lemma index_knot ks i : (i < length ks)%nat -> index ks i = Ret (knot ks i).
Proof.
  intros H. unfold index, knot. rewrite (nth_error_nth' ks (last ks 0) H). reflexivity.
Qed.

Lemma cox_N ks x d : forall i, (i + d + 1 < length ks)%nat ->
  cox_de_boor ks x i d = Ret (N (knot ks) x d i).
Proof.
  induction d as [|d IH]; intros i H.
  - cbn [cox_de_boor]. rewrite !index_knot by lia. reflexivity.
  - cbn [cox_de_boor N]. rewrite !index_knot by lia. cbn [bind].
    rewrite IH by lia. rewrite (IH (i + 1)%nat) by lia.
    destruct (Reqb _ _); cbn [bind]; destruct (Reqb _ _); reflexivity.
Qed.

Lemma bs_sum_combN ks x d cps : forall i v, (i + length cps + d + 1 <= length ks)%nat ->
  bs_sum ks x d i cps v = Ret (v + combN (knot ks) x d i cps).
Proof.
  induction cps as [|c cps IH]; intros i v H; cbn [bs_sum combN].
  - f_equal. ring.
  - cbn [length] in H. rewrite cox_N by lia. cbn [bind]. rewrite IH by lia. f_equal. ring.
Qed.

Lemma sorted_knot ks : StronglySorted Rle ks -> forall i j, (i <= j)%nat -> knot ks i <= knot ks j.
Proof.
  intros S i j H.
  assert (LL : forall (l : list R) a d d', last (a :: l) d = last (a :: l) d').
  { induction l as [|b l IHl]; intros a d d'; [reflexivity|]. apply (IHl b). }
  assert (LI : forall (l : list R) a d, In (last (a :: l) d) (a :: l)).
  { induction l as [|b l IHl]; intros a d; [left; reflexivity|]. right. apply (IHl b). }
  revert i j H. induction S as [|a l S IH F]; intros i j H.
  - unfold knot. destruct i, j; simpl; lra.
  - rewrite Forall_forall in F.
    assert (K : forall n, knot (a :: l) (Datatypes.S n) = match l with [] => a | _ => knot l n end).
    { intros n. unfold knot. destruct l as [|b l]; [destruct n; reflexivity|].
      cbn [nth]. change (last (a :: b :: l) 0) with (last (b :: l) 0). reflexivity. }
    destruct i as [|i], j as [|j]; try lia.
    + lra.
    + rewrite K. unfold knot at 1. cbn [nth]. destruct l as [|b l]; [lra|].
      unfold knot. apply F. destruct (Nat.lt_ge_cases j (length (b :: l))) as [X|X].
      * apply nth_In; exact X.
      * rewrite nth_overflow by exact X. apply LI.
    + rewrite !K. destruct l as [|b l]; [lra|]. apply IH. lia.
Qed.

(** ** Well-formed splines: everything the API can build *)

Lemma insert_R_perm a l : Permutation (insert_R a l) (a :: l).
Proof.
  induction l as [|b l IH]; simpl; [reflexivity|]. destruct (Rleb a b); [reflexivity|].
  rewrite IH. apply perm_swap.
Qed.
Lemma insert_R_sorted a l : StronglySorted Rle l -> StronglySorted Rle (insert_R a l).
Proof.
  induction 1 as [|b l S IH F]; simpl; [repeat constructor|].
  destruct (Rleb_spec a b) as [H|H].
  - constructor; [constructor; assumption|]. constructor; [exact H|].
    eapply Forall_impl; [|exact F]. intros c Hc. simpl in Hc. lra.
  - constructor; [assumption|]. apply Forall_forall. intros c Hc.
    apply (Permutation_in _ (insert_R_perm a l)) in Hc. destruct Hc as [<-|Hc]; [lra|].
    rewrite Forall_forall in F. apply F; assumption.
Qed.
Lemma sort_R_sorted l : StronglySorted Rle (sort_R l).
Proof. induction l; simpl; [constructor|]. apply insert_R_sorted; assumption. Qed.
Lemma sort_R_perm l : Permutation (sort_R l) l.
Proof. induction l as [|a l IH]; simpl; [reflexivity|]. rewrite insert_R_perm, IH. reflexivity. Qed.

Lemma insert_R_index a l : vec_insert (partition_point (fun x => Rltb x a) l) a l = Ret (insert_R a l).
Proof.
  induction l as [|b l IH]; simpl; [reflexivity|].
  destruct (Rltb_spec b a), (Rleb_spec a b); try lra.
  - simpl. rewrite IH. reflexivity.
  - reflexivity.
Qed.

(** built by [new] and any number of [add_point] calls *)
Inductive built : bspline -> Prop :=
| built_new ks cps d s : bspline_new ks cps d = Some s -> built s
| built_add s p s' : built s -> bspline_add_point s p = Ret s' -> built s'.

Lemma bspline_add_point_eq s p :
  bspline_add_point s p = Ret (BSpline (insert_R (fst p) (knots s)) (control_points s ++ [snd p]) (degree s)).
Proof. unfold bspline_add_point. rewrite insert_R_index. reflexivity. Qed.

Lemma built_wf s : built s -> StronglySorted Rle (knots s) /\
  length (knots s) = (length (control_points s) + degree s + 1)%nat.
Proof.
  induction 1 as [ks cps d s H|s p s' B [S L] H].
  - unfold bspline_new in H. destruct (Nat.eqb_spec (length ks) (length cps + d + 1)) as [E|]; [|discriminate].
    injection H as <-. cbn [knots control_points degree]. split; [apply sort_R_sorted|].
    rewrite (Permutation_length (sort_R_perm ks)). exact E.
  - rewrite bspline_add_point_eq in H. injection H as <-. cbn [knots control_points degree].
    split; [apply insert_R_sorted; exact S|].
    rewrite (Permutation_length (insert_R_perm _ _)), app_length. simpl. lia.
Qed.

Lemma interpolate_eq s x : built s ->
  bspline_interpolate s x =
    let n := length (control_points s) in
    if negb (Rleb (knot (knots s) (degree s)) x && Rleb x (knot (knots s) n)) then Ret None
    else Ret (Some (combN (knot (knots s)) x (degree s) 0 (control_points s))).
Proof.
  intros B. destruct (built_wf s B) as [S L]. unfold bspline_interpolate.
  rewrite !index_knot by lia. cbn [bind].
  replace (length (knots s) - degree s - 1)%nat with (length (control_points s)) by lia.
  destruct (negb _); [reflexivity|]. rewrite bs_sum_combN by lia. cbn [bind]. rewrite Rplus_0_l. reflexivity.
Qed.

(** ** C21: theorems *)

Lemma add_points_built : forall s p, built s -> exists s', bspline_add_point s p = Ret s' /\ built s'.
Proof.
  intros s p B. rewrite bspline_add_point_eq. eexists; split; [reflexivity|].
  eapply built_add; [exact B|apply bspline_add_point_eq].
Qed.

(** never panics; out of range exactly outside [t_d, t_n] *)
Theorem bspline_total : forall s x, built s -> exists lo hi,
  nth_error (knots s) (degree s) = Some lo /\
  nth_error (knots s) (length (control_points s)) = Some hi /\
  ((x < lo \/ hi < x) /\ bspline_interpolate s x = Ret None \/
   lo <= x <= hi /\ exists v, bspline_interpolate s x = Ret (Some v)).
Proof.
  intros s x B. destruct (built_wf s B) as [S L].
  exists (knot (knots s) (degree s)), (knot (knots s) (length (control_points s))).
  split; [apply nth_error_nth'; lia|]. split; [apply nth_error_nth'; lia|].
  rewrite interpolate_eq by assumption. cbv zeta.
  destruct (Rleb_spec (knot (knots s) (degree s)) x), (Rleb_spec x (knot (knots s) (length (control_points s)))); cbn [andb negb].
  - right. split; [lra|]. eexists; reflexivity.
  - left. split; [lra|reflexivity].
  - left. split; [lra|reflexivity].
  - left. split; [lra|reflexivity].
Qed.
Print Assumptions bspline_total.

(** the basis functions the code computes: non-negative and zero outside the span *)
Theorem bspline_basis_local : forall s x i, built s -> (i < length (control_points s))%nat ->
  exists b a z, cox_de_boor (knots s) x i (degree s) = Ret b /\
    nth_error (knots s) i = Some a /\ nth_error (knots s) (i + degree s + 1) = Some z /\
    0 <= b /\ (x < a \/ z <= x -> b = 0).
Proof.
  intros s x i B Hi. destruct (built_wf s B) as [S L]. rewrite cox_N by lia.
  exists (N (knot (knots s)) x (degree s) i), (knot (knots s) i), (knot (knots s) (i + degree s + 1)).
  split; [reflexivity|]. split; [apply nth_error_nth'; lia|]. split; [apply nth_error_nth'; lia|].
  split; [apply N_nonneg; apply sorted_knot; exact S|]. apply N_support. apply sorted_knot; exact S.
Qed.
Print Assumptions bspline_basis_local.

(** sum of the basis functions the code computes *)
Fixpoint basis_sum (ks : list R) (x : R) (d i k : nat) : res R :=
  match k with
  | O => Ret 0
  | S k' => let! b := cox_de_boor ks x i d in let! s := basis_sum ks x d (S i) k' in Ret (b + s)
  end.
Lemma basis_sum_eq ks x d k : forall i, (i + k + d + 1 <= length ks)%nat ->
  basis_sum ks x d i k = Ret (sumN (knot ks) x d i k).
Proof.
  induction k as [|k IH]; intros i H; [reflexivity|].
  cbn [basis_sum]. rewrite cox_N by lia. cbn [bind]. rewrite IH by lia. cbn [bind].
  rewrite sumN_shift. reflexivity.
Qed.

Theorem bspline_partition_of_unity : forall s x lo hi, built s ->
  nth_error (knots s) (degree s) = Some lo -> nth_error (knots s) (length (control_points s)) = Some hi ->
  lo <= x < hi ->
  basis_sum (knots s) x (degree s) 0 (length (control_points s)) = Ret 1.
Proof.
  intros s x lo hi B Hlo Hhi Hx. destruct (built_wf s B) as [S L].
  rewrite basis_sum_eq by lia. f_equal.
  apply nth_error_nth with (d := last (knots s) 0) in Hlo, Hhi.
  apply sumN_one; [apply sorted_knot; exact S|unfold knot; simpl; rewrite Hlo; lra|unfold knot; simpl; rewrite Hhi; lra].
Qed.
Print Assumptions bspline_partition_of_unity.

(** inside the half-open interval the curve stays in the convex hull of the control values *)
Theorem bspline_convex_hull : forall s x lo hi m M, built s ->
  nth_error (knots s) (degree s) = Some lo -> nth_error (knots s) (length (control_points s)) = Some hi ->
  lo <= x < hi -> (forall c, In c (control_points s) -> m <= c <= M) ->
  exists v, bspline_interpolate s x = Ret (Some v) /\ m <= v <= M.
Proof.
  intros s x lo hi m M B Hlo Hhi Hx H. destruct (built_wf s B) as [S L].
  pose proof (bspline_partition_of_unity s x lo hi B Hlo Hhi Hx) as P. rewrite basis_sum_eq in P by lia. injection P as P.
  apply nth_error_nth with (d := last (knots s) 0) in Hlo, Hhi. fold (knot (knots s) (degree s)) in Hlo.
  fold (knot (knots s) (length (control_points s))) in Hhi.
  rewrite interpolate_eq by assumption. cbv zeta. rewrite Hlo, Hhi.
  destruct (Rleb_spec lo x); [|lra]. destruct (Rleb_spec x hi); [|lra]. cbn [andb negb].
  eexists; split; [reflexivity|].
  pose proof (combN_lower (knot (knots s)) (sorted_knot _ S) x (degree s) m (control_points s) 0 (fun c Hc => proj1 (H c Hc))).
  pose proof (combN_upper (knot (knots s)) (sorted_knot _ S) x (degree s) M (control_points s) 0 (fun c Hc => proj2 (H c Hc))).
  rewrite P in *. lra.
Qed.
Print Assumptions bspline_convex_hull.

(** moving control point [i] changes the curve only on its span *)
Theorem bspline_local_control : forall ks d l1 c c' l2 s s' x a z,
  bspline_new ks (l1 ++ c :: l2) d = Some s -> bspline_new ks (l1 ++ c' :: l2) d = Some s' ->
  nth_error (knots s) (length l1) = Some a -> nth_error (knots s) (length l1 + d + 1) = Some z ->
  x < a \/ z <= x -> bspline_interpolate s x = bspline_interpolate s' x.
Proof.
  intros ks d l1 c c' l2 s s' x a z H H' Ha Hz Hx.
  assert (B : built s) by (eapply built_new; exact H). assert (B' : built s') by (eapply built_new; exact H').
  rewrite !interpolate_eq by assumption. cbv zeta.
  unfold bspline_new in H, H'. destruct (Nat.eqb _ _); [|discriminate]. destruct (Nat.eqb _ _); [|discriminate].
  injection H as <-. injection H' as <-. cbn [knots control_points degree] in *.
  apply nth_error_nth with (d := last (sort_R ks) 0) in Ha, Hz.
  replace (length (l1 ++ c' :: l2)) with (length (l1 ++ c :: l2)) by (rewrite !app_length; reflexivity).
  rewrite !combN_app. cbn [combN].
  rewrite (N_support (knot (sort_R ks)) (sorted_knot _ (sort_R_sorted ks)) x d (0 + length l1)).
  - rewrite !Rmult_0_l. reflexivity.
  - unfold knot. simpl plus. rewrite Ha, Hz. exact Hx.
Qed.
Print Assumptions bspline_local_control.

(** the right endpoint when the knots leave it (positive degree): still a partition of unity *)
Theorem bspline_right_endpoint : forall s lo hi nx, built s ->
  nth_error (knots s) (degree s) = Some lo -> nth_error (knots s) (length (control_points s)) = Some hi ->
  nth_error (knots s) (length (control_points s) + 1) = Some nx ->
  (0 < degree s)%nat -> lo <= hi -> hi < nx ->
  basis_sum (knots s) hi (degree s) 0 (length (control_points s)) = Ret 1.
Proof.
  intros s lo hi nx B Hlo Hhi Hn D Hx Hl. destruct (built_wf s B) as [S L].
  rewrite basis_sum_eq by lia. f_equal.
  apply nth_error_nth with (d := last (knots s) 0) in Hlo, Hhi, Hn.
  destruct (degree s) as [|d] eqn:Ed; [lia|].
  assert (E : sumN (knot (knots s)) hi (Datatypes.S d) 0 (Datatypes.S (length (control_points s))) = 1).
  { apply sumN_one; [apply sorted_knot; exact S|unfold knot; simpl plus; rewrite Hlo; lra|].
    unfold knot. replace (0 + Datatypes.S (length (control_points s)))%nat with (length (control_points s) + 1)%nat by lia. rewrite Hn. lra. }
  cbn [sumN] in E. rewrite (N_left_knot (knot (knots s)) (sorted_knot _ S) hi) in E.
  - rewrite Rplus_0_r in E. exact E.
  - unfold knot. simpl plus. rewrite Hhi. reflexivity.
  - unfold knot. simpl plus. rewrite Hhi, Hn. exact Hl.
Qed.
Print Assumptions bspline_right_endpoint.

(** the right endpoint of a clamped knot vector: accepted, and always 0 *)
Theorem bspline_clamped_endpoint_zero : forall s lo hi, built s ->
  nth_error (knots s) (degree s) = Some lo ->
  nth_error (knots s) (length (control_points s)) = Some hi -> lo <= hi ->
  nth_error (knots s) (length (knots s) - 1) = Some hi ->
  bspline_interpolate s hi = Ret (Some 0).
Proof.
  intros s lo hi B Hlo Hhi Hx Hl. destruct (built_wf s B) as [S L].
  rewrite interpolate_eq by assumption. cbv zeta.
  apply nth_error_nth with (d := last (knots s) 0) in Hlo, Hhi, Hl.
  fold (knot (knots s) (degree s)) in Hlo.
  fold (knot (knots s) (length (control_points s))) in Hhi. fold (knot (knots s) (length (knots s) - 1)) in Hl.
  rewrite Hlo, Hhi. destruct (Rleb_spec lo hi); [|lra]. destruct (Rleb_spec hi hi); [|lra]. cbn [andb negb].
  do 2 f_equal. apply combN_zero. intros j Hj. apply N_support; [apply sorted_knot; exact S|]. right.
  rewrite <- Hl. apply sorted_knot; [exact S|]. lia.
Qed.
Print Assumptions bspline_clamped_endpoint_zero.

(** hence the advertised interval does not give a partition of unity: a constant
    polygon of ones evaluates to 0 at an admissible parameter *)
Theorem bspline_unity_on_closed_interval_refuted : exists s x, built s /\
  (forall c, In c (control_points s) -> c = 1) /\ control_points s <> [] /\
  bspline_interpolate s x = Ret (Some 0).
Proof.
  exists (BSpline [0; 0; 1; 1] [1; 1] 1), 1.
  assert (B : built (BSpline [0; 0; 1; 1] [1; 1] 1)).
  { apply (built_new [0; 0; 1; 1] [1; 1] 1). unfold bspline_new. simpl. do 2 f_equal.
    repeat (match goal with |- context [Rleb ?a ?b] => destruct (Rleb_spec a b); try lra; simpl end); reflexivity. }
  split; [exact B|]. split; [intros c [<-|[<-|[]]]; reflexivity|]. split; [discriminate|].
  apply (bspline_clamped_endpoint_zero _ 0 1 B); try reflexivity. lra.
Qed.
Print Assumptions bspline_unity_on_closed_interval_refuted.

(** non-vacuity: an unsorted knot vector, quadratic, and an added point *)
Example bspline_case : exists s s', bspline_new [3; 0; 1; 2; 4; 5] [10; 20; 30] 2 = Some s /\
  bspline_add_point s (6, 40) = Ret s' /\ built s' /\
  nth_error (knots s) 2 = Some 2 /\ nth_error (knots s) 3 = Some 3 /\ nth_error (knots s) 4 = Some 4.
Proof.
  assert (E : sort_R [3; 0; 1; 2; 4; 5] = [0; 1; 2; 3; 4; 5]).
  { simpl. repeat (match goal with |- context [Rleb ?a ?b] => destruct (Rleb_spec a b); try lra; simpl end); reflexivity. }
  eexists. eexists. unfold bspline_new. cbn [length Nat.add Nat.eqb]. split; [reflexivity|].
  split; [apply bspline_add_point_eq|]. split.
  - eapply built_add; [|apply bspline_add_point_eq].
    apply (built_new [3; 0; 1; 2; 4; 5] [10; 20; 30] 2). reflexivity.
  - cbn [knots]. rewrite E. repeat split; reflexivity.
Qed.
