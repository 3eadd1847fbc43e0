(** Sums of lists of reals: lemmas shared by several developments. *)
From Coq Require Import Reals List Bool ZArith Lra Lia Psatz Permutation Sorted.
From Verif Require Import Res InterpModel InterpProofs.
Import ListNotations.
Open Scope R_scope.

(** [iter().sum::<f64>()] *)
Definition rsum (l : list R) : R := fold_right Rplus 0 l.
(** [iter().product::<f64>()] *)
Definition rprod (l : list R) : R := fold_right Rmult 1 l.

Lemma rsum_perm l1 l2 : Permutation l1 l2 -> rsum l1 = rsum l2.
Proof. induction 1; simpl; lra. Qed.
Lemma rprod_perm l1 l2 : Permutation l1 l2 -> rprod l1 = rprod l2.
Proof. induction 1 as [|? ? ? ? IH|? ? ?|? ? ? ? IH1 ? IH2]; simpl; [reflexivity|rewrite IH; reflexivity|ring|congruence]. Qed.
Lemma rsum_app l1 l2 : rsum (l1 ++ l2) = rsum l1 + rsum l2.
Proof. induction l1 as [|a l1 IH]; simpl; lra. Qed.
(** sums do not depend on the direction of the fold over [R] *)
Lemma rsum_fold_left l : fold_left Rplus l 0 = rsum l.
Proof.
  assert (G : forall l a, fold_left Rplus l a = a + rsum l).
  { clear. induction l as [|b l IH]; intros a; simpl; [lra|]. rewrite IH. lra. }
  rewrite G. lra.
Qed.
Lemma rsum_map_ext {A} (f g : A -> R) l : (forall x, In x l -> f x = g x) -> rsum (map f l) = rsum (map g l).
Proof. intros H. induction l as [|a l IH]; simpl; [lra|]. rewrite H, IH; [lra| |left; reflexivity]. intros x Hx. apply H. right. exact Hx. Qed.
Lemma rsum_map_plus {A} (f g : A -> R) l : rsum (map (fun x => f x + g x) l) = rsum (map f l) + rsum (map g l).
Proof. induction l as [|a l IH]; simpl; lra. Qed.
Lemma rsum_map_scal {A} (f : A -> R) c l : rsum (map (fun x => c * f x) l) = c * rsum (map f l).
Proof. induction l as [|a l IH]; simpl; lra. Qed.
Lemma rsum_map_const {A} c (l : list A) : rsum (map (fun _ => c) l) = INR (length l) * c.
Proof. induction l as [|a l IH]; [simpl; lra|]. cbn [map length]. rewrite S_INR. change (rsum (c :: map (fun _ => c) l)) with (c + rsum (map (fun _ => c) l)). rewrite IH. lra. Qed.
Lemma rsum_map_le {A} (f g : A -> R) l : (forall x, In x l -> f x <= g x) -> rsum (map f l) <= rsum (map g l).
Proof.
  intros H. induction l as [|a l IH]; simpl; [lra|].
  assert (f a <= g a) by (apply H; left; reflexivity).
  assert (rsum (map f l) <= rsum (map g l)) by (apply IH; intros; apply H; right; assumption). lra.
Qed.
Lemma rsum_nonneg {A} (f : A -> R) l : (forall x, In x l -> 0 <= f x) -> 0 <= rsum (map f l).
Proof. intros H. pose proof (rsum_map_le (fun _ => 0) f l H) as E. rewrite rsum_map_const in E. lra. Qed.
Lemma rsum_zero {A} (f : A -> R) l : (forall x, In x l -> 0 <= f x) -> rsum (map f l) = 0 -> forall x, In x l -> f x = 0.
Proof.
  intros H. induction l as [|a l IH]; intros E x Hx; [destruct Hx|]. simpl in E.
  assert (0 <= f a) by (apply H; left; reflexivity).
  assert (0 <= rsum (map f l)) by (apply rsum_nonneg; intros; apply H; right; assumption).
  destruct Hx as [<-|Hx]; [lra|]. apply IH; [intros; apply H; right; assumption|lra|exact Hx].
Qed.
Lemma rprod_pos l : (forall x, In x l -> 0 < x) -> 0 < rprod l.
Proof.
  induction l as [|a l IH]; intros H; simpl; [lra|]. apply Rmult_lt_0_compat; [apply H; left; reflexivity|apply IH; intros; apply H; right; assumption].
Qed.
Lemma ln_rprod l : (forall x, In x l -> 0 < x) -> ln (rprod l) = rsum (map ln l).
Proof.
  induction l as [|a l IH]; intros H; simpl; [apply ln_1|].
  rewrite ln_mult, IH; [reflexivity| | |]. 
  - intros x Hx. apply H. right. exact Hx.
  - apply H. left. reflexivity.
  - apply rprod_pos. intros x Hx. apply H. right. exact Hx.
Qed.

Lemma Rmult_pos_neg a b : 0 < a -> b < 0 -> a * b < 0.
Proof. nra. Qed.
(** Cauchy-Schwarz over a list *)
Lemma cauchy_schwarz {A} (f g : A -> R) l :
  rsum (map (fun x => f x * g x) l) * rsum (map (fun x => f x * g x) l) <=
  rsum (map (fun x => f x * f x) l) * rsum (map (fun x => g x * g x) l).
Proof.
  set (P := rsum (map (fun x => f x * g x) l)). set (F := rsum (map (fun x => f x * f x) l)). set (G := rsum (map (fun x => g x * g x) l)).
  assert (G0 : 0 <= G) by (apply rsum_nonneg; intros; nra).
  assert (E : rsum (map (fun x => (G * f x - P * g x) * (G * f x - P * g x)) l) = G * (F * G - P * P)).
  { transitivity (rsum (map (fun x => (G * G) * (f x * f x) + ((- 2 * G * P) * (f x * g x) + (P * P) * (g x * g x))) l)).
    - apply rsum_map_ext. intros. ring.
    - rewrite rsum_map_plus, rsum_map_plus, !rsum_map_scal. fold P F G. ring. }
  assert (E0 : 0 <= G * (F * G - P * P)) by (rewrite <- E; apply rsum_nonneg; intros; apply Rle_0_sqr).
  destruct (Req_dec G 0) as [Z|N].
  - assert (Pz : P = 0).
    { unfold P. rewrite <- (Rmult_0_r (INR (length l))), <- (rsum_map_const 0 l). apply rsum_map_ext. intros x Hx.
      assert (g x * g x = 0) by (apply (rsum_zero (fun x => g x * g x) l); [intros; nra|exact Z|exact Hx]). nra. }
    rewrite Pz, Z. lra.
  - assert (F * G - P * P >= 0 \/ F * G - P * P < 0) as [?|X] by lra; [lra|exfalso].
    assert (G * (F * G - P * P) < 0) by (apply Rmult_pos_neg; lra). lra.
Qed.

(** a sorted list is determined by its elements *)
Lemma sorted_unique l1 : forall l2, StronglySorted Rle l1 -> StronglySorted Rle l2 -> Permutation l1 l2 -> l1 = l2.
Proof.
  induction l1 as [|a l1 IH]; intros [|b l2] S1 S2 P.
  - reflexivity.
  - apply Permutation_nil in P. discriminate.
  - apply Permutation_sym, Permutation_nil in P. discriminate.
  - inversion_clear S1 as [|? ? S1' F1]. inversion_clear S2 as [|? ? S2' F2].
    assert (E : a = b).
    { rewrite Forall_forall in F1, F2.
      assert (Ia : In a (b :: l2)) by (eapply Permutation_in; [exact P|left; reflexivity]).
      assert (Ib : In b (a :: l1)) by (eapply Permutation_in; [apply Permutation_sym; exact P|left; reflexivity]).
      destruct Ia as [Ea|Ia]; [auto|]. destruct Ib as [Eb|Ib]; [auto|].
      specialize (F1 _ Ib). specialize (F2 _ Ia). lra. }
    subst b. f_equal. apply IH; auto. eapply Permutation_cons_inv. exact P.
Qed.
