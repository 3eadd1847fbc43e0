(** Finite sums and small matrix algebra, matrices being functions of indices. *)
From Coq Require Import Reals Lra Lia PeanoNat.
Open Scope R_scope.

Definition vec := nat -> R.
Definition mat := nat -> nat -> R.

Fixpoint bs (n : nat) (f : nat -> R) : R :=
  match n with O => 0 | S k => bs k f + f k end.

Definition tr (A : mat) : mat := fun i j => A j i.
(** [k] is the common dimension *)
Definition mmul (k : nat) (A B : mat) : mat := fun i j => bs k (fun l => A i l * B l j).
Definition mvec (k : nat) (A : mat) (v : vec) : vec := fun i => bs k (fun l => A i l * v l).
Definition dotn (n : nat) (a b : vec) : R := bs n (fun i => a i * b i).
Definition eye : mat := fun i j => if Nat.eqb i j then 1 else 0.
Definition diag (d : vec) : mat := fun i j => if Nat.eqb i j then d i else 0.

Lemma bs_ext n f g : (forall i, (i < n)%nat -> f i = g i) -> bs n f = bs n g.
Proof. induction n as [|n IH]; intros H; simpl; [reflexivity|]. rewrite IH, H by (auto with arith). reflexivity. Qed.
Lemma bs_plus n f g : bs n (fun i => f i + g i) = bs n f + bs n g.
Proof. induction n as [|n IH]; simpl; [ring|]. rewrite IH. ring. Qed.
Lemma bs_minus n f g : bs n (fun i => f i - g i) = bs n f - bs n g.
Proof. induction n as [|n IH]; simpl; [ring|]. rewrite IH. ring. Qed.
Lemma bs_scal n c f : bs n (fun i => c * f i) = c * bs n f.
Proof. induction n as [|n IH]; simpl; [ring|]. rewrite IH. ring. Qed.
Lemma bs_scal_r n c f : bs n (fun i => f i * c) = bs n f * c.
Proof. induction n as [|n IH]; simpl; [ring|]. rewrite IH. ring. Qed.
Lemma bs_const n c : bs n (fun _ => c) = INR n * c.
Proof. induction n as [|n IH]; [simpl; ring|]. cbn [bs]. rewrite IH, S_INR. ring. Qed.
Lemma bs_zero n : bs n (fun _ => 0) = 0.
Proof. rewrite bs_const. ring. Qed.
Lemma bs_swap n m (f : nat -> nat -> R) : bs n (fun i => bs m (fun j => f i j)) = bs m (fun j => bs n (fun i => f i j)).
Proof. induction n as [|n IH]; simpl; [symmetry; apply bs_zero|]. rewrite IH, <- bs_plus. reflexivity. Qed.
Lemma bs_le n f g : (forall i, (i < n)%nat -> f i <= g i) -> bs n f <= bs n g.
Proof. induction n as [|n IH]; intros H; simpl; [lra|]. apply Rplus_le_compat; auto with arith. Qed.
Lemma bs_nonneg n f : (forall i, (i < n)%nat -> 0 <= f i) -> 0 <= bs n f.
Proof. intros H. rewrite <- (bs_zero n). apply bs_le. exact H. Qed.
Lemma bs_zero_inv n f : (forall i, (i < n)%nat -> 0 <= f i) -> bs n f = 0 -> forall i, (i < n)%nat -> f i = 0.
Proof.
  induction n as [|n IH]; intros H E i Hi; [lia|]. simpl in E.
  assert (0 <= bs n f) by (apply bs_nonneg; auto with arith). assert (0 <= f n) by (apply H; lia).
  destruct (Nat.eq_dec i n) as [->|]; [lra|]. apply IH; auto with arith; [lra|lia].
Qed.
Lemma bs_delta n k f : (k < n)%nat -> bs n (fun i => if Nat.eqb i k then f i else 0) = f k.
Proof.
  induction n as [|n IH]; intros H; [lia|]. simpl. destruct (Nat.eqb_spec n k) as [->|E].
  - rewrite (bs_ext k _ (fun _ => 0)), bs_zero; [ring|]. intros i Hi. destruct (Nat.eqb_spec i k); [lia|reflexivity].
  - rewrite IH by lia. ring.
Qed.
Lemma bs_shift n f : bs (S n) f = f O + bs n (fun i => f (S i)).
Proof. induction n as [|n IH]; [simpl; ring|]. cbn [bs] in *. rewrite IH. ring. Qed.
(** replacing one entry *)
Definition upd (v : vec) (j : nat) (t : R) : vec := fun i => if Nat.eqb i j then t else v i.
Lemma bs_upd n (f : nat -> R -> R) v j t : (j < n)%nat ->
  bs n (fun i => f i (upd v j t i)) = bs n (fun i => f i (v i)) + (f j t - f j (v j)).
Proof.
  induction n as [|n IH]; intros H; [lia|]. simpl. unfold upd at 2. destruct (Nat.eqb_spec n j) as [->|E].
  - rewrite (bs_ext j _ (fun i => f i (v i))); [ring|]. intros i Hi. unfold upd. destruct (Nat.eqb_spec i j); [lia|reflexivity].
  - rewrite IH by lia. ring.
Qed.
Lemma dotn_comm n a b : dotn n a b = dotn n b a.
Proof. apply bs_ext. intros. ring. Qed.
(** (A v) . w = v . (A' w) *)
Lemma dot_tr n m A v w : dotn n (mvec m A v) w = dotn m v (mvec n (tr A) w).
Proof.
  unfold dotn, mvec, tr. rewrite (bs_ext n _ (fun i => bs m (fun l => A i l * v l * w i))) by (intros; symmetry; apply bs_scal_r).
  rewrite bs_swap. apply bs_ext. intros l Hl. rewrite <- bs_scal. apply bs_ext. intros. ring.
Qed.
Lemma mvec_mmul n m A B v i : mvec n (mmul m A B) v i = mvec m A (mvec n B v) i.
Proof.
  unfold mvec, mmul. rewrite (bs_ext n _ (fun l => bs m (fun k => A i k * (B k l * v l)))).
  - rewrite bs_swap. apply bs_ext. intros k Hk. apply bs_scal.
  - intros l Hl. rewrite <- bs_scal_r. apply bs_ext. intros. ring.
Qed.
Lemma mvec_ext k A v w i : (forall l, (l < k)%nat -> v l = w l) -> mvec k A v i = mvec k A w i.
Proof. intros H. apply bs_ext. intros l Hl. rewrite H by exact Hl. reflexivity. Qed.
Lemma mvec_minus k A v w i : mvec k A (fun l => v l - w l) i = mvec k A v i - mvec k A w i.
Proof. unfold mvec. rewrite <- bs_minus. apply bs_ext. intros. ring. Qed.
Lemma mvec_plus k A v w i : mvec k A (fun l => v l + w l) i = mvec k A v i + mvec k A w i.
Proof. unfold mvec. rewrite <- bs_plus. apply bs_ext. intros. ring. Qed.
(** a matrix equal to the identity on its first [k] rows and columns *)
Definition is_eye (k : nat) (A : mat) : Prop := forall i j, (i < k)%nat -> (j < k)%nat -> A i j = eye i j.
Lemma mvec_eye k A v i : is_eye k A -> (i < k)%nat -> mvec k A v i = v i.
Proof.
  intros H Hi. unfold mvec. rewrite (bs_ext k _ (fun l => if Nat.eqb l i then v l else 0)); [apply bs_delta, Hi|].
  intros l Hl. rewrite H by assumption. unfold eye. rewrite Nat.eqb_sym. destruct (Nat.eqb l i); ring.
Qed.
Lemma mvec_diag k d v i : (i < k)%nat -> mvec k (diag d) v i = d i * v i.
Proof.
  intros Hi. unfold mvec, diag. rewrite (bs_ext k _ (fun l => if Nat.eqb l i then d i * v l else 0)); [apply (bs_delta k i (fun l => d i * v l)), Hi|].
  intros l Hl. rewrite Nat.eqb_sym. destruct (Nat.eqb l i); ring.
Qed.
