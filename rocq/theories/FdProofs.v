(** Lemmas about the tridiagonal algebra of the finite-difference pricer. *)
From Coq Require Import ZArith Reals List Bool Lra Lia Psatz.
From Verif Require Import Res DateModel InterpModel InterpProofs RList PayoffModel FdModel.
Import ListNotations.
Open Scope R_scope.

(** [prev v i] is [v[i-1]], and 0 for [i = 0] *)
Definition prev (v : list R) (i : nat) : R := match i with O => 0 | S j => nth j v 0 end.
Definition tri_row (c d b : R) (v : list R) (i : nat) : R := c * prev v i + d * nth i v 0 + b * nth (S i) v 0.

Lemma list_ext (u v : list R) : length u = length v -> (forall i, (i < length u)%nat -> nth i u 0 = nth i v 0) -> u = v.
Proof. intros L H. apply (nth_ext u v 0 0 L H). Qed.

Lemma tri_inner_spec c d b : forall v p, length (tri_inner c d b p v) = length v /\
  forall i, (i < length v)%nat -> nth i (tri_inner c d b p v) 0 = c * (match i with O => p | S j => nth j v 0 end) + d * nth i v 0 + b * nth (S i) v 0.
Proof.
  induction v as [|x v IH]; intros p; [split; [reflexivity|cbn; lia]|]. destruct v as [|y v].
  - split; [reflexivity|]. intros i H. cbn in H. assert (i = O) as -> by lia. cbn. ring.
  - destruct (IH x) as [L N]. change (tri_inner c d b p (x :: y :: v)) with ((c * p + d * x + b * y) :: tri_inner c d b x (y :: v)). split; [cbn [length]; rewrite L; reflexivity|].
    intros [|i] H; [reflexivity|]. cbn [nth]. rewrite N by (cbn [length] in *; lia). destruct i; reflexivity.
Qed.
Lemma tri_mul_spec c d b v : (2 <= length v)%nat -> exists w, tri_mul c d b v = Ret w /\ length w = length v /\
  forall i, (i < length v)%nat -> nth i w 0 = tri_row c d b v i.
Proof.
  intros L. destruct v as [|x [|y v]]; cbn in L; try lia. eexists. split; [reflexivity|].
  destruct (tri_inner_spec c d b (y :: v) x) as [L' N]. split; [cbn [length] in *; rewrite L'; reflexivity|].
  intros [|i] H; [unfold tri_row; cbn; ring|]. change (nth (S i) ((d * x + b * y) :: tri_inner c d b x (y :: v)) 0) with (nth i (tri_inner c d b x (y :: v)) 0).
  rewrite N by (cbn [length] in *; lia). unfold tri_row, prev. destruct i; reflexivity.
Qed.
Lemma tri_mul_short c d b v : (length v < 2)%nat -> tri_mul c d b v = Panic.
Proof. destruct v as [|x [|y v]]; cbn; intros; reflexivity || lia. Qed.

(** sums over 1..n *)
Fixpoint sm (n : nat) (f : nat -> R) : R := match n with O => 0 | S m => sm m f + f (S m) end.
Lemma sm_rsum n f : rsum (map (fun j => f (S j)) (seq 0 n)) = sm n f.
Proof.
  induction n as [|n IH]; [reflexivity|]. rewrite seq_S, map_app, rsum_app, IH. cbn [map sm Nat.add]. unfold rsum at 1. simpl. ring.
Qed.
Lemma sm_ext n f g : (forall j, (1 <= j <= n)%nat -> f j = g j) -> sm n f = sm n g.
Proof. induction n as [|n IH]; intros H; [reflexivity|]. cbn [sm]. rewrite IH by (intros; apply H; lia). rewrite H by lia. reflexivity. Qed.
Lemma sm_plus n f g : sm n (fun j => f j + g j) = sm n f + sm n g.
Proof. induction n as [|n IH]; [cbn; ring|]. cbn [sm]. rewrite IH. ring. Qed.
Lemma sm_scal n c f : sm n (fun j => c * f j) = c * sm n f.
Proof. induction n as [|n IH]; [cbn; ring|]. cbn [sm]. rewrite IH. ring. Qed.
Lemma sm_le n f g : (forall j, (1 <= j <= n)%nat -> f j <= g j) -> sm n f <= sm n g.
Proof. induction n as [|n IH]; intros H; [cbn; lra|]. cbn [sm]. specialize (IH ltac:(intros; apply H; lia)). specialize (H (S n) ltac:(lia)). lra. Qed.
Lemma sm_zero n : sm n (fun _ => 0) = 0.
Proof. induction n as [|n IH]; [reflexivity|]. cbn [sm]. rewrite IH. ring. Qed.
Lemma sm_delta n i (v : nat -> R) : (1 <= i <= n)%nat -> sm n (fun j => (if (i =? j)%nat then 1 else 0) * v j) = v i.
Proof.
  induction n as [|n IH]; intros H; [lia|]. cbn [sm]. destruct (Nat.eqb_spec i (S n)) as [->|N].
  - rewrite (sm_ext n _ (fun _ => 0)).
    + rewrite sm_zero. ring.
    + intros j J. destruct (Nat.eqb_spec (S n) j); [lia|]. ring.
  - rewrite IH by lia. ring.
Qed.
Lemma sm_shift_dn n f g : sm n (fun j => f j * g (j - 1)%nat) + f (S n) * g n = f 1%nat * g O + sm n (fun j => f (S j) * g j).
Proof.
  induction n as [|n IH]; [cbn; ring|]. cbn [sm]. replace (S n - 1)%nat with n by lia. 
  replace (sm n (fun j => f j * g (j - 1)%nat) + f (S n) * g n + f (S (S n)) * g (S n)) with ((sm n (fun j => f j * g (j - 1)%nat) + f (S n) * g n) + f (S (S n)) * g (S n)) by ring.
  rewrite IH. ring.
Qed.

(** the continuants: [Th 0 = 0], [Th 1 = 1], [Th (k+2) = d Th (k+1) - e Th k] *)
Fixpoint Th (d e : R) (k : nat) : R :=
  match k with O => 0 | S k' => match k' with O => 1 | S k'' => d * Th d e k' - e * Th d e k'' end end.
Lemma Th_rec d e k : Th d e (S (S k)) = d * Th d e (S k) - e * Th d e k.
Proof. reflexivity. Qed.
Lemma Th_add d e : forall a b, Th d e (S (a + b)) = Th d e (S a) * Th d e (S b) - e * Th d e a * Th d e b.
Proof.
  intros a. cut (forall b, Th d e (S (a + b)) = Th d e (S a) * Th d e (S b) - e * Th d e a * Th d e b /\ Th d e (S (S a + b)) = Th d e (S (S a)) * Th d e (S b) - e * Th d e (S a) * Th d e b).
  { intros H b. apply H. }
  induction a as [|a IH]; intros b.
  - split; [cbn [Nat.add Th]; ring|]. change (S (1 + b)) with (S (S b)). rewrite !Th_rec. change (Th d e 1) with 1. change (Th d e 0) with 0. ring.
  - destruct (IH b) as [H1 H2]. split; [exact H2|]. change (S (S (S a) + b)) with (S (S (S (a + b)))). rewrite (Th_rec d e (S (a + b))).
    change (S (S (a + b))) with (S (S a + b)). rewrite H2, H1. rewrite (Th_rec d e (S a)), (Th_rec d e a). ring.
Qed.

Section Inverse.
  Variables (c d b : R) (N : nat).
  Let e := b * c.
  Notation T := (Th d e).
  Definition G (i j : nat) : R :=
    if (i <=? j)%nat then (- b) ^ (j - i) * T i * T (N - j) else (- c) ^ (i - j) * T j * T (N - i).
  Lemma G_ge i j : (j <= i)%nat -> G i j = (- c) ^ (i - j) * T j * T (N - i).
  Proof.
    intros H. unfold G. destruct (Nat.leb_spec i j) as [L|L]; [|reflexivity]. assert (i = j) as -> by lia. rewrite Nat.sub_diag. reflexivity.
  Qed.
  Lemma G_le i j : (i <= j)%nat -> G i j = (- b) ^ (j - i) * T i * T (N - j).
  Proof. intros H. unfold G. destruct (Nat.leb_spec i j) as [L|L]; [reflexivity|lia]. Qed.
  Lemma G_col p j : (S (S p) <= N)%nat -> (1 <= j)%nat -> (j < N)%nat ->
    c * G p j + d * G (S p) j + b * G (S (S p)) j = if (S p =? j)%nat then T N else 0.
  Proof.
    intros HN J1 J2. destruct (Nat.eqb_spec (S p) j) as [<-|NE].
    - rewrite (G_le p (S p)), (G_le (S p) (S p)), (G_ge (S (S p)) (S p)) by lia.
      replace (S p - p)%nat with 1%nat by lia. replace (S p - S p)%nat with O by lia. replace (S (S p) - S p)%nat with 1%nat by lia. rewrite pow_1, pow_O, pow_1.
      pose proof (Th_add d e (S p) (N - S (S p))) as A. replace (S (S p + (N - S (S p)))) with N in A by lia. rewrite A.
      replace (S (N - S (S p))) with (N - S p)%nat by lia. rewrite Th_rec. unfold e. ring.
    - destruct (Nat.lt_ge_cases (S p) j) as [L|L].
      + rewrite !G_le by lia. replace (j - p)%nat with (S (S (j - S (S p)))) by lia. replace (j - S p)%nat with (S (j - S (S p))) by lia.
        rewrite Th_rec. cbn [pow]. unfold e. ring.
      + assert (L' : (j <= p)%nat) by lia. rewrite !G_ge by lia. replace (S p - j)%nat with (S (p - j)) by lia. replace (S (S p) - j)%nat with (S (S (p - j))) by lia.
        replace (N - p)%nat with (S (S (N - S (S p)))) by lia. replace (N - S p)%nat with (S (N - S (S p))) by lia. rewrite Th_rec. cbn [pow]. unfold e. ring.
  Qed.
  Lemma G_0l j : G O j = 0.
  Proof. unfold G. cbn. ring. Qed.
  Lemma G_Nl j : (j < N)%nat -> G N j = 0.
  Proof. intros H. rewrite G_ge by lia. rewrite Nat.sub_diag. cbn. ring. Qed.
End Inverse.
Lemma G_swap c d b N i j : G c d b N i j = G b d c N j i.
Proof.
  destruct (Nat.le_gt_cases i j).
  - rewrite G_le, G_ge by assumption. rewrite (Rmult_comm c b). reflexivity.
  - rewrite G_ge, G_le by lia. rewrite (Rmult_comm c b). reflexivity.
Qed.

(** the lists of the code *)
Lemma grow d e : forall k len, (2 <= len)%nat ->
  fold_left (fun th i => th ++ [d * nth i th 0 - e * nth (i - 1) th 0]) (seq (len - 1) k) (map (fun i => Th d e (S i)) (seq 0 len)) =
  map (fun i => Th d e (S i)) (seq 0 (len + k)).
Proof.
  induction k as [|k IH]; intros len L; [rewrite Nat.add_0_r; reflexivity|]. cbn [seq fold_left].
  assert (Nt : forall i, (i < len)%nat -> nth i (map (fun i => Th d e (S i)) (seq 0 len)) 0 = Th d e (S i)).
  { intros i Hi. rewrite (nth_indep _ 0 (Th d e (S 0))) by (rewrite map_length, seq_length; exact Hi). rewrite (map_nth (fun i => Th d e (S i))), seq_nth by exact Hi. reflexivity. }
  rewrite !Nt by lia. replace (S (len - 1)) with len by lia. replace (S (len - 1 - 1)) with (len - 1)%nat by lia.
  replace (d * Th d e len - e * Th d e (len - 1)) with (Th d e (S len)) by (destruct len as [|len]; [lia|]; replace (S len - 1)%nat with len by lia; reflexivity).
  replace (map (fun i => Th d e (S i)) (seq 0 len) ++ [Th d e (S len)]) with (map (fun i => Th d e (S i)) (seq 0 (S len))) by (rewrite seq_S, map_app; reflexivity).
  replace (len + S k)%nat with (S len + k)%nat by lia. rewrite <- IH by lia. replace (S len - 1)%nat with len by lia. reflexivity.
Qed.
Lemma theta_list_eq c d b n : theta_list c d b n = map (fun i => Th d (b * c) (S i)) (seq 0 (3 + (n - 2))).
Proof.
  unfold theta_list. rewrite <- (grow d (b * c) (n - 2) 3) by lia. change (3 - 1)%nat with 2%nat. f_equal.
  cbn [seq map]. rewrite !Th_rec. change (Th d (b * c) 1) with 1. change (Th d (b * c) 0) with 0. apply (f_equal2 cons); [ring|apply (f_equal2 cons); [ring|apply (f_equal2 cons); [ring|reflexivity]]].
Qed.
Lemma phi_list_eq c d b n : (1 <= n)%nat -> phi_list c d b n = map (fun i => Th d (b * c) (S i)) (seq 0 (n + 1)).
Proof.
  intros L. unfold phi_list. replace (n + 1)%nat with (2 + (n - 1))%nat by lia. rewrite <- (grow d (b * c) (n - 1) 2) by lia. change (2 - 1)%nat with 1%nat. f_equal.
  cbn [seq map]. rewrite !Th_rec. change (Th d (b * c) 1) with 1. change (Th d (b * c) 0) with 0. apply (f_equal2 cons); [ring|apply (f_equal2 cons); [ring|reflexivity]].
Qed.
Lemma nth_seq_map {A} (f : nat -> A) n i dflt : (i < n)%nat -> nth i (map f (seq 0 n)) dflt = f i.
Proof.
  intros H. rewrite (nth_indep _ dflt (f O)) by (rewrite map_length, seq_length; exact H). rewrite map_nth, seq_nth by exact H. reflexivity.
Qed.
Lemma prod_super d b n : forall k i a, (i + k <= n - 1)%nat -> fold_left (fun value k => value * (if (k =? n - 1)%nat then d else b)) (seq i k) a = a * b ^ k.
Proof.
  induction k as [|k IH]; intros i a H; [cbn; ring|]. cbn [seq fold_left pow]. destruct (Nat.eqb_spec i (n - 1)); [lia|]. rewrite IH by lia. ring.
Qed.
Lemma repeat_mul_pow x k a : repeat_mul x k a = a * x ^ k.
Proof. induction k as [|k IH]; [cbn; ring|]. change (repeat_mul x (S k) a) with (repeat_mul x k a * x). rewrite IH. cbn [pow]. ring. Qed.
Lemma sign_pow x i j : (i <= j)%nat -> (-1) ^ (i + j) * x ^ (j - i) = (- x) ^ (j - i).
Proof.
  intros H. replace (i + j)%nat with (2 * i + (j - i))%nat by lia. rewrite pow_add, pow_mult. replace ((-1) ^ 2) with 1 by ring. rewrite pow1, Rmult_1_l, <- Rpow_mult_distr. f_equal. ring.
Qed.

(** entries of the inverse *)
Lemma invert_entry c d b n : (2 <= n)%nat -> invert_tri c d b n =
  map (fun i => map (fun j => G c d b (S n) (S i) (S j) / Th d (b * c) (S n)) (seq 0 n)) (seq 0 n).
Proof.
  intros L. unfold invert_tri. apply map_ext_in. intros i Hi. apply map_ext_in. intros j Hj. apply in_seq in Hi. apply in_seq in Hj.
  rewrite theta_list_eq, phi_list_eq by lia. replace (3 + (n - 2))%nat with (S n) by lia. replace (n + 1)%nat with (S n) by lia.
  rewrite !seq_S, !map_app. cbn [map Nat.add]. rewrite last_last, !removelast_last.
  assert (P : forall k, (k < n)%nat -> nth k (rev (map (fun i => Th d (b * c) (S i)) (seq 0 n))) 0 = Th d (b * c) (n - k)).
  { intros k Hk. rewrite rev_nth by (rewrite map_length, seq_length; exact Hk). rewrite map_length, seq_length, nth_seq_map by lia. f_equal. lia. }
  set (phi := rev (map (fun i => Th d (b * c) (S i)) (seq 0 n))) in *. clearbody phi.
  destruct (Nat.compare_spec i j) as [E|E|E].
  - subst j. rewrite P, nth_seq_map, G_le by lia. rewrite Nat.sub_diag. replace (S n - S i)%nat with (n - i)%nat by lia.
    pose proof (sign_pow 1 i i ltac:(lia)) as S1. rewrite Nat.sub_diag, !pow_O, Rmult_1_r in S1. rewrite S1, pow_O. unfold Rdiv. ring.
  - rewrite P, nth_seq_map, prod_super, sign_pow, G_le by lia. replace (S j - S i)%nat with (j - i)%nat by lia. replace (S n - S j)%nat with (n - j)%nat by lia. unfold Rdiv. ring.
  - rewrite P, nth_seq_map, repeat_mul_pow, (Nat.add_comm i j), sign_pow, G_ge by lia. replace (S i - S j)%nat with (i - j)%nat by lia. replace (S n - S i)%nat with (n - i)%nat by lia. unfold Rdiv. ring.
Qed.

Lemma dot_acc : forall l a, fold_left (fun acc p => acc + fst p * snd p) l a = a + rsum (map (fun p : R * R => fst p * snd p) l).
Proof.
  induction l as [|p l IH]; intros a; [cbn; unfold rsum; simpl; ring|]. cbn [fold_left map]. rewrite IH. change (rsum (?x :: ?y)) with (x + rsum y). ring.
Qed.
Lemma dot_sm n f : forall v, length v = n -> dot (map f (seq 0 n)) v = sm n (fun j => f (j - 1)%nat * prev v j).
Proof.
  intros v L. unfold dot. rewrite dot_acc, Rplus_0_l.
  assert (E : forall k (f : nat -> R) v, length v = k -> combine (map f (seq 0 k)) v = map (fun j => (f j, nth j v 0)) (seq 0 k)).
  { clear. induction k as [|k IH]; intros f v L; [reflexivity|]. destruct v as [|x v]; [discriminate|]. cbn [seq map combine]. f_equal.
    rewrite <- seq_shift, !map_map. rewrite (IH (fun i => f (S i)) v) by (cbn in L; lia). reflexivity. }
  rewrite E by exact L. rewrite map_map. cbn [fst snd]. rewrite <- sm_rsum. apply rsum_map_ext. intros j _. replace (S j - 1)%nat with j by lia. reflexivity.
Qed.
Lemma gen_mul_invert c d b n v : (2 <= n)%nat -> length v = n ->
  length (gen_mul (invert_tri c d b n) v) = n /\
  forall i, (i < n)%nat -> nth i (gen_mul (invert_tri c d b n) v) 0 = sm n (fun j => G c d b (S n) (S i) j / Th d (b * c) (S n) * prev v j).
Proof.
  intros L LV. unfold gen_mul. rewrite invert_entry by exact L. rewrite map_map. split; [rewrite map_length, seq_length; reflexivity|].
  intros i Hi. rewrite nth_seq_map by exact Hi. rewrite dot_sm by exact LV. apply sm_ext. intros j Hj. replace (S (j - 1)) with j by lia. reflexivity.
Qed.

(** ** inverse on both sides *)
Lemma invert_right c d b n v : (2 <= n)%nat -> length v = n -> Th d (b * c) (S n) <> 0 ->
  tri_mul c d b (gen_mul (invert_tri c d b n) v) = Ret v.
Proof.
  intros L LV T0. destruct (gen_mul_invert c d b n v L LV) as [LW W]. set (w := gen_mul (invert_tri c d b n) v) in *. clearbody w.
  destruct (tri_mul_spec c d b w ltac:(lia)) as (u & -> & LU & U). f_equal. apply list_ext; [lia|]. intros i Hi. rewrite U by lia. rewrite LU, LW in Hi.
  assert (Wx : forall k, (k <= n)%nat -> prev w k = sm n (fun j => G c d b (S n) k j / Th d (b * c) (S n) * prev v j)).
  { intros [|k] Hk; [|cbn [prev]; apply W; lia]. cbn [prev]. rewrite (sm_ext n _ (fun _ => 0)); [rewrite sm_zero; reflexivity|]. intros j _. rewrite G_0l. unfold Rdiv. ring. }
  assert (Wn : nth (S i) w 0 = sm n (fun j => G c d b (S n) (S (S i)) j / Th d (b * c) (S n) * prev v j)).
  { destruct (Nat.eq_dec (S i) n) as [E|E]; [|apply W; lia]. rewrite nth_overflow by lia. rewrite <- E at 1. rewrite E. rewrite (sm_ext n _ (fun _ => 0)); [rewrite sm_zero; reflexivity|].
    intros j Hj. rewrite G_Nl by lia. unfold Rdiv. ring. }
  unfold tri_row. rewrite Wx, Wn by lia. change (nth i w 0) with (prev w (S i)). rewrite Wx by lia.
  rewrite <- !sm_scal, <- !sm_plus. change (nth i v 0) with (prev v (S i)). rewrite <- (sm_delta n (S i) (prev v)) by lia. apply sm_ext. intros j Hj.
  pose proof (G_col c d b (S n) i j ltac:(lia) ltac:(lia) ltac:(lia)) as Q.
  replace (c * (G c d b (S n) i j / Th d (b * c) (S n) * prev v j) + d * (G c d b (S n) (S i) j / Th d (b * c) (S n) * prev v j) + b * (G c d b (S n) (S (S i)) j / Th d (b * c) (S n) * prev v j))
    with ((c * G c d b (S n) i j + d * G c d b (S n) (S i) j + b * G c d b (S n) (S (S i)) j) / Th d (b * c) (S n) * prev v j) by (field; exact T0).
  rewrite Q. destruct (S i =? j)%nat; [field; exact T0|unfold Rdiv; ring].
Qed.
Lemma invert_left c d b n v w : (2 <= n)%nat -> length v = n -> Th d (b * c) (S n) <> 0 ->
  tri_mul c d b v = Ret w -> gen_mul (invert_tri c d b n) w = v.
Proof.
  intros L LV T0 Hw. destruct (tri_mul_spec c d b v ltac:(lia)) as (w' & E & LW & W). rewrite E in Hw. assert (w' = w) as -> by congruence. clear E Hw. rewrite LV in LW, W.
  destruct (gen_mul_invert c d b n w L LW) as [LU U]. apply list_ext; [lia|]. intros i Hi. rewrite LU in Hi. rewrite U by exact Hi.
  set (Tn := Th d (b * c) (S n)) in *.
  set (g := fun j => G c d b (S n) (S i) j).
  set (V := fun j => match j with O => 0 | S k => nth k v 0 end).
  assert (Vn : V (S n) = 0) by (unfold V; apply nth_overflow; lia).
  rewrite (sm_ext n _ (fun j => / Tn * (c * (g j * V (j - 1)%nat) + (d * (g j * V j) + b * (g j * V (S j)))))).
  2: { intros j Hj. destruct j as [|j]; [lia|]. cbn [prev]. rewrite W by lia. unfold tri_row. replace (S j - 1)%nat with j by lia. unfold g, V, prev. unfold Rdiv. ring. }
  rewrite sm_scal, !sm_plus, !sm_scal.
  pose proof (sm_shift_dn n g V) as S1. pose proof (sm_shift_dn n (fun j => V j) (fun j => g j)) as S2.
  change (V O) with 0 in S1. change (V 1%nat) with (nth 0 v 0) in S2. cbv beta in S2. rewrite Vn in S2.
  assert (g0 : g O = 0) by (unfold g; rewrite G_swap; apply G_0l).
  assert (gn : g (S n) = 0) by (unfold g; rewrite G_swap; apply G_Nl; lia).
  rewrite g0 in S2. rewrite gn in S1. rewrite Rmult_0_r, Rplus_0_l, Rmult_0_l, Rplus_0_r in S1. rewrite Rmult_0_r, Rmult_0_l, Rplus_0_l, Rplus_0_r in S2.
  rewrite S1. assert (S2' : sm n (fun j => g j * V (S j)) = sm n (fun j => V j * g (j - 1)%nat)) by (rewrite S2; apply sm_ext; intros; ring). rewrite S2'.
  rewrite <- !sm_scal, <- !sm_plus, <- sm_scal. change (nth i v 0) with (V (S i)). rewrite <- (sm_delta n (S i) V) by lia. apply sm_ext. intros j Hj.
  destruct j as [|p]; [lia|]. replace (S p - 1)%nat with p by lia.
  pose proof (G_col b d c (S n) p (S i) ltac:(lia) ltac:(lia) ltac:(lia)) as Q. rewrite <- !(G_swap c d b) in Q. fold (g p) (g (S p)) (g (S (S p))) in Q. rewrite (Rmult_comm c b) in Q. fold Tn in Q.
  replace (/ Tn * (c * (g (S (S p)) * V (S p)) + (d * (g (S p) * V (S p)) + b * (V (S p) * g p)))) with (/ Tn * (b * g p + d * g (S p) + c * g (S (S p))) * V (S p)) by ring.
  rewrite Q, (Nat.eqb_sym (S p) (S i)). destruct (S i =? S p)%nat; [field; exact T0|ring].
Qed.
