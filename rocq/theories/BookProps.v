(** C86: the queue order book. *)
From Coq Require Import List Arith Lia Permutation.
From Verif Require Import BookModel.
Import ListNotations.
Set Implicit Arguments.

Section History.
Variable payload : Type.
Implicit Types (os : list (order payload)) (b : book payload).
Definition after b os : book payload := fold_left insert_order os b.

Lemma after_sides : forall os b, bids (after b os) = bids b ++ filter (fun o => match order_side o with Bid => true | Ask => false end) os /\ asks (after b os) = asks b ++ filter (fun o => match order_side o with Bid => false | Ask => true end) os.
Proof.
  induction os as [|o os IH]; intros [x y]; simpl; [rewrite !app_nil_r; split; reflexivity|]. specialize (IH (insert_order (Book x y) o)). unfold after in IH. unfold after. simpl. destruct IH as [A B]. rewrite A, B.
  unfold insert_order. destruct (order_side o); simpl; rewrite <- ?app_assoc; split; reflexivity.
Qed.
(** position [i] comes before position [j] *)
Definition precedes (l : list (order payload)) (o p : order payload) : Prop := exists l1 l2 l3, l = l1 ++ o :: l2 ++ p :: l3.
Lemma filter_split : forall (f : order payload -> bool) l1 x l2, filter f (l1 ++ x :: l2) = filter f l1 ++ (if f x then [x] else []) ++ filter f l2.
Proof. intros f l1 x l2. induction l1 as [|a l1 IH]; simpl; [destruct (f x); reflexivity|]. destruct (f a); simpl; rewrite IH; reflexivity. Qed.

(** After any history of insertions into an empty book: each side holds exactly the
    orders of that side, each as often as it was inserted; the earlier of two orders of
    one side stands nearer the front; nothing is lost or invented; [len] is the number
    of insertions and [is_empty] tells whether there were any. *)
Theorem order_book_history : forall os, let b := after new os in
  (forall o, In o (bids b) <-> In o os /\ order_side o = Bid) /\ (forall o, In o (asks b) <-> In o os /\ order_side o = Ask) /\
  (forall o p, precedes os o p -> order_side o = Bid -> order_side p = Bid -> precedes (bids b) o p) /\
  (forall o p, precedes os o p -> order_side o = Ask -> order_side p = Ask -> precedes (asks b) o p) /\
  Permutation (bids b ++ asks b) os /\ len b = length os /\ (is_empty b = true <-> os = []) /\ (is_empty b = true <-> len b = 0).
Proof.
  intro os. cbv zeta. destruct (after_sides os new) as [A B]. simpl in A, B.
  assert (P : Permutation (bids (after new os) ++ asks (after new os)) os).
  { rewrite A, B. clear A B. induction os as [|o os IH]; [constructor|]. simpl. destruct (order_side o); simpl; [constructor; exact IH|]. apply Permutation_sym, Permutation_cons_app, Permutation_sym. exact IH. }
  assert (L : len (after new os) = length os) by (unfold len; rewrite <- app_length; apply Permutation_length; exact P).
  assert (E : is_empty (after new os) = true <-> len (after new os) = 0).
  { unfold is_empty, len. destruct (bids (after new os)), (asks (after new os)); simpl; split; intro H; try reflexivity; try discriminate; lia. }
  split; [intro o; rewrite A, filter_In; destruct (order_side o); intuition congruence|]. split; [intro o; rewrite B, filter_In; destruct (order_side o); intuition congruence|].
  split; [|split; [|split; [exact P|split; [exact L|split; [|exact E]]]]].
  - intros o p (l1 & l2 & l3 & ->) Ho Hp. rewrite A, filter_split, Ho, filter_split, Hp. simpl. eexists _, _, _. reflexivity.
  - intros o p (l1 & l2 & l3 & ->) Ho Hp. rewrite B, filter_split, Ho, filter_split, Hp. simpl. eexists _, _, _. reflexivity.
  - rewrite E, L. destruct os; simpl; split; intro H; try reflexivity; discriminate.
Qed.
(** Insertions on opposite sides commute; on the same side the order matters. *)
Theorem order_book_sides_independent : forall b o p, order_side p = side_not (order_side o) -> insert_order (insert_order b o) p = insert_order (insert_order b p) o.
Proof. intros b o p H. unfold insert_order. rewrite H. destruct (order_side o); reflexivity. Qed.
End History.
Print Assumptions order_book_history.
Print Assumptions order_book_sides_independent.
Example order_book_case : let o := Order 1 Bid tt in let p := Order 2 Ask tt in let q := Order 3 Bid tt in after new [o; p; q] = Book [o; q] [p].
Proof. reflexivity. Qed.
(** The book keeps arrival order, not price order: a better bid that arrives later is
    behind (payload: the price). *)
Theorem order_book_price_priority_refuted : exists (o p : order nat) l, bids (after new l) = [o; p] /\ data o < data p.
Proof. exists (Order 1 Bid 10), (Order 2 Bid 11), [Order 1 Bid 10; Order 2 Bid 11]. split; [reflexivity|simpl; lia]. Qed.
Print Assumptions order_book_price_priority_refuted.
