(** The moments of the quadrature rule, by fixed-point arithmetic with error bounds. *)
From Coq Require Import Reals List ZArith Lra Lia Psatz.
From Verif Require Import QuadModel.
Import ListNotations.
Open Scope R_scope.

(** ** The rule as a weighted sum *)
Definition wt (i : nat) : R := dval (nth i WEIGHTS (dec 0 0)).
Definition nd (i : nat) : R := dval (nth i ABSCISSAE (dec 0 0)).
Fixpoint isum (l : list nat) (g : nat -> R) : R :=
  match l with [] => 0 | i :: l' => g i + isum l' g end.
Definition qsum (f : R -> R) : R := isum (seq 0 100) (fun i => wt i * f (nd i)).

Lemma tanhsinh_qsum : forall f, tanhsinh f = qsum f.
Proof.
  intro f. unfold tanhsinh, qsum.
  change (fold_left (fun s i => s + wt i * f (nd i)) (seq 0 100) 0 = isum (seq 0 100) (fun i => wt i * f (nd i))).
  assert (G : forall l s, fold_left (fun s i => s + wt i * f (nd i)) l s = s + isum l (fun i => wt i * f (nd i))).
  { induction l as [|i l IH]; intro s; simpl; [ring|]. rewrite IH. ring. }
  rewrite G. ring.
Qed.
Lemma isum_ext : forall l f g, (forall i, In i l -> f i = g i) -> isum l f = isum l g.
Proof. induction l as [|i l IH]; intros f g H; simpl; [reflexivity|]. rewrite (H i) by (left; reflexivity). rewrite (IH f g); [reflexivity|]. intros; apply H; right; assumption. Qed.
Lemma isum_le : forall l f g, (forall i, In i l -> f i <= g i) -> isum l f <= isum l g.
Proof. induction l as [|i l IH]; intros f g H; simpl; [lra|]. apply Rplus_le_compat; [apply H; left; reflexivity|apply IH; intros; apply H; right; assumption]. Qed.
Lemma isum_plus : forall l f g, isum l (fun i => f i + g i) = isum l f + isum l g.
Proof. induction l as [|i l IH]; intros; simpl; [ring|]. rewrite IH. ring. Qed.
Lemma isum_scal : forall l c f, isum l (fun i => c * f i) = c * isum l f.
Proof. induction l as [|i l IH]; intros; simpl; [ring|]. rewrite IH. ring. Qed.
Lemma isum_abs : forall l f, Rabs (isum l f) <= isum l (fun i => Rabs (f i)).
Proof. induction l as [|i l IH]; intros; simpl; [rewrite Rabs_R0; lra|]. eapply Rle_trans; [apply Rabs_triang|]. apply Rplus_le_compat_l, IH. Qed.
Lemma isum_const : forall l c, isum l (fun _ => c) = INR (length l) * c.
Proof. induction l as [|i l IH]; intros; [simpl; ring|]. simpl isum. rewrite IH. change (length (i :: l)) with (S (length l)). rewrite S_INR. ring. Qed.

(** ** Fixed point: 64 binary places *)
Definition B64 : Z := (2 ^ 64)%Z.
Lemma B64_pos : 0 < IZR B64. Proof. apply IZR_lt. reflexivity. Qed.
Definition fix64 (d : decimal) : Z := (fst d * B64 / 10 ^ snd d)%Z.
Lemma fix64_spec : forall d, (0 <= snd d)%Z -> IZR (fix64 d) / IZR B64 <= dval d < IZR (fix64 d) / IZR B64 + / IZR B64.
Proof.
  intros [m e] He. simpl in He. unfold fix64, dval. simpl fst. simpl snd.
  assert (P : (0 < 10 ^ e)%Z) by (apply Z.pow_pos_nonneg; lia).
  set (q := (m * B64 / 10 ^ e)%Z).
  assert (D : (10 ^ e * q <= m * B64 < 10 ^ e * q + 10 ^ e)%Z).
  { unfold q. pose proof (Z.mul_div_le (m * B64) (10 ^ e) P). pose proof (Z.mul_succ_div_gt (m * B64) (10 ^ e) P). nia. }
  destruct D as [D1 D2]. apply IZR_le in D1. apply IZR_lt in D2. rewrite plus_IZR, !mult_IZR in *. 
  assert (PE : 0 < IZR (10 ^ e)) by (apply IZR_lt; exact P). pose proof B64_pos as PB.
  set (E := IZR (10 ^ e)) in *. set (B := IZR B64) in *. set (M := IZR m) in *. set (Q := IZR q) in *. clearbody E B M Q.
  assert (X : M / E = M * B / (E * B)) by (field; lra).
  assert (Y : Q / B = E * Q / (E * B)) by (field; lra).
  assert (Z1 : / B = E / (E * B)) by (field; lra).
  rewrite X, Y, Z1. assert (PP : 0 < / (E * B)) by (apply Rinv_0_lt_compat, Rmult_lt_0_compat; assumption).
  unfold Rdiv. split; [apply Rmult_le_compat_r; lra|]. rewrite <- Rmult_plus_distr_r. apply Rmult_lt_compat_r; lra.
Qed.

Fixpoint zpow (X : Z) (k : nat) : Z := match k with O => B64 | S k' => Z.shiftr (zpow X k' * X) 64 end.
Lemma shiftr_spec : forall z, IZR (Z.shiftr z 64) <= IZR z / IZR B64 < IZR (Z.shiftr z 64) + 1.
Proof.
  intro z. rewrite Z.shiftr_div_pow2 by lia. change (2 ^ 64)%Z with B64. assert (P : (0 < B64)%Z) by reflexivity.
  pose proof (Z.mul_div_le z B64 P) as D1. pose proof (Z.mul_succ_div_gt z B64 P) as D2.
  apply IZR_le in D1. apply IZR_lt in D2. rewrite mult_IZR in *. rewrite succ_IZR in D2. pose proof B64_pos as PB.
  set (B := IZR B64) in *. set (Q := IZR (z / B64)) in *. set (M := IZR z) in *. clearbody B Q M.
  split.
  - apply Rmult_le_reg_r with B; [lra|]. unfold Rdiv. rewrite Rmult_assoc, Rinv_l by lra. lra.
  - apply Rmult_lt_reg_r with B; [lra|]. unfold Rdiv. rewrite Rmult_assoc, Rinv_l by lra. lra.
Qed.
Lemma zpow_bound : forall X k, (Z.abs X <= B64)%Z -> (Z.abs (zpow X k) <= B64)%Z.
Proof.
  intros X k HX. induction k as [|k IH]; [simpl; reflexivity|]. cbn [zpow]. rewrite Z.shiftr_div_pow2 by lia. change (2 ^ 64)%Z with B64.
  assert (P : (0 < B64)%Z) by reflexivity. set (p := zpow X k) in *. clearbody p. set (B := B64) in *. clearbody B.
  assert (A : (Z.abs (p * X) <= B * B)%Z) by (rewrite Z.abs_mul; apply Z.mul_le_mono_nonneg; lia).
  apply Z.abs_le in A. apply Z.abs_le. split.
  - apply Z.div_le_lower_bound; lia.
  - apply Z.div_le_upper_bound; lia.
Qed.
Definition ulp : R := / IZR B64.
Lemma ulp_pos : 0 < ulp. Proof. apply Rinv_0_lt_compat, B64_pos. Qed.
Lemma zpow_spec : forall X x k, (Z.abs X <= B64)%Z -> Rabs x <= 1 -> Rabs (IZR X / IZR B64 - x) <= ulp ->
  Rabs (IZR (zpow X k) / IZR B64 - x ^ k) <= 2 * INR k * ulp.
Proof.
  intros X x k HX Hx HD. induction k as [|k IH].
  - simpl. unfold Rdiv. rewrite Rinv_r by (pose proof B64_pos; lra). replace (1 - 1) with 0 by ring. rewrite Rabs_R0. lra.
  - pose proof (zpow_bound X k HX) as PB. cbn [zpow]. pose proof (shiftr_spec (zpow X k * X)) as SS. rewrite mult_IZR in SS.
    apply IZR_le in PB. rewrite abs_IZR in PB. pose proof B64_pos as BP. rewrite S_INR. change (x ^ S k) with (x * x ^ k).
    assert (PB' : Rabs (IZR (zpow X k) / IZR B64) <= 1).
    { unfold Rdiv. rewrite Rabs_mult, (Rabs_right (/ IZR B64)) by (left; apply Rinv_0_lt_compat; assumption).
      apply Rmult_le_reg_r with (IZR B64); [lra|]. rewrite Rmult_assoc, Rinv_l by lra. lra. }
    unfold ulp in *. set (B := IZR B64) in *. set (p := IZR (zpow X k)) in *. set (s := IZR (Z.shiftr (zpow X k * X) 64)) in *.
    assert (E : Rabs (s / B - (p / B) * (IZR X / B)) <= / B).
    { replace (s / B - (p / B) * (IZR X / B)) with (/ B * (s - p * IZR X / B)) by (field; lra).
      rewrite Rabs_mult, (Rabs_right (/ B)) by (left; apply Rinv_0_lt_compat; assumption).
      rewrite <- (Rmult_1_r (/ B)) at 2. apply Rmult_le_compat_l; [left; apply Rinv_0_lt_compat; assumption|]. apply Rabs_le. lra. }
    replace (s / B - x * x ^ k) with ((s / B - p / B * (IZR X / B)) + (p / B) * (IZR X / B - x) + x * (p / B - x ^ k)) by ring.
    eapply Rle_trans; [apply Rabs_triang|]. eapply Rle_trans; [apply Rplus_le_compat_r, Rabs_triang|]. rewrite !Rabs_mult.
    assert (T1 : Rabs (p / B) * Rabs (IZR X / B - x) <= 1 * / B) by (apply Rmult_le_compat; try apply Rabs_pos; assumption).
    assert (T2 : Rabs x * Rabs (p / B - x ^ k) <= 1 * (2 * INR k * / B)) by (apply Rmult_le_compat; try apply Rabs_pos; assumption).
    lra.
Qed.

(** ** The table, as fixed-point numbers *)
Definition zrow (i : nat) : Z * Z := (fix64 (nth i WEIGHTS (dec 0 0)), fix64 (nth i ABSCISSAE (dec 0 0))).
Definition zrows : list (Z * Z) := Eval vm_compute in map zrow (seq 0 100).
Lemma zrows_eq : zrows = map zrow (seq 0 100). Proof. vm_compute. reflexivity. Qed.

Definition row_ok (i : nat) : bool :=
  let w := nth i WEIGHTS (dec 0 0) in let x := nth i ABSCISSAE (dec 0 0) in
  ((0 <=? snd w) && (0 <=? fst w) && (0 <=? snd x) && (Z.abs (fst x) <=? 10 ^ snd x) && (Z.abs (fix64 x) <=? B64))%Z%bool.
Lemma rows_ok : forallb row_ok (seq 0 100) = true. Proof. vm_compute. reflexivity. Qed.
Lemma row_spec : forall i, In i (seq 0 100) ->
  0 <= wt i /\ Rabs (nd i) <= 1 /\ (Z.abs (snd (zrow i)) <= B64)%Z /\
  IZR (fst (zrow i)) / IZR B64 <= wt i <= IZR (fst (zrow i)) / IZR B64 + ulp /\
  Rabs (IZR (snd (zrow i)) / IZR B64 - nd i) <= ulp.
Proof.
  intros i Hi. pose proof rows_ok as R. rewrite forallb_forall in R. specialize (R i Hi). unfold row_ok in R.
  rewrite !Bool.andb_true_iff, !Z.leb_le in R. destruct R as [[[[R1 R2] R3] R4] R5].
  pose proof (fix64_spec _ R1) as F1. pose proof (fix64_spec _ R3) as F2. unfold wt, nd, zrow. cbn [fst snd].
  assert (P3 : 0 < IZR (10 ^ snd (nth i ABSCISSAE (dec 0 0)))) by (apply IZR_lt, Z.pow_pos_nonneg; lia).
  assert (P1 : 0 < IZR (10 ^ snd (nth i WEIGHTS (dec 0 0)))) by (apply IZR_lt, Z.pow_pos_nonneg; lia).
  split; [|split; [|split; [|split]]].
  - unfold dval. apply Rmult_le_pos; [apply IZR_le; exact R2|left; apply Rinv_0_lt_compat; exact P1].
  - unfold dval, Rdiv. rewrite Rabs_mult, (Rabs_right (/ _)) by (left; apply Rinv_0_lt_compat; exact P3).
    apply Rmult_le_reg_r with (IZR (10 ^ snd (nth i ABSCISSAE (dec 0 0)))); [exact P3|]. rewrite Rmult_assoc, Rinv_l by lra.
    rewrite <- abs_IZR, Rmult_1_l, Rmult_1_r. apply IZR_le. exact R4.
  - exact R5.
  - unfold ulp. lra.
  - unfold ulp. apply Rabs_le. lra.
Qed.

(** ** Moments *)
Definition moment (k : nat) : R := qsum (fun x => x ^ k).
Fixpoint zsum (l : list (Z * Z)) (k : nat) : Z := match l with [] => 0%Z | (W, X) :: l' => (W * zpow X k + zsum l' k)%Z end.
Lemma zsum_spec : forall k, Rabs (moment k - IZR (zsum zrows k) / (IZR B64 * IZR B64)) <= (2 * INR k * isum (seq 0 100) wt + 100) * ulp.
Proof.
  intro k. rewrite zrows_eq. unfold moment, qsum.
  assert (G : forall l, (forall i, In i l -> In i (seq 0 100)) ->
    Rabs (isum l (fun i => wt i * nd i ^ k) - IZR (zsum (map zrow l) k) / (IZR B64 * IZR B64)) <= (2 * INR k * isum l wt + INR (length l)) * ulp).
  { induction l as [|i l IH]; intro HL.
    - simpl. unfold Rdiv. rewrite Rmult_0_l, Rminus_0_r, Rabs_R0. lra.
    - specialize (IH (fun i H => HL i (or_intror H))). destruct (row_spec i (HL i (or_introl eq_refl))) as (H1 & H2 & H3 & H4 & H5).
      cbn [isum map]. change (length (i :: l)) with (S (length l)). rewrite S_INR.
      destruct (zrow i) as [W X]. simpl fst in *. simpl snd in *. cbn [zsum]. rewrite plus_IZR, mult_IZR.
      pose proof (zpow_spec X (nd i) k H3 H2 H5) as ZP. pose proof (zpow_bound X k H3) as ZB. apply IZR_le in ZB. rewrite abs_IZR in ZB.
      pose proof B64_pos as BP. set (B := IZR B64) in *. set (p := IZR (zpow X k)) in *. set (Z := IZR (zsum (map zrow l) k)) in *. set (S := isum l (fun i => wt i * nd i ^ k)) in *.
      assert (PB : Rabs (p / B) <= 1).
      { unfold Rdiv. rewrite Rabs_mult, (Rabs_right (/ B)) by (left; apply Rinv_0_lt_compat; assumption).
        apply Rmult_le_reg_r with B; [lra|]. rewrite Rmult_assoc, Rinv_l by lra. lra. }
      replace (wt i * nd i ^ k + S - (IZR W * p + Z) / (B * B)) with ((- wt i * (p / B - nd i ^ k) + (wt i - IZR W / B) * (p / B)) + (S - Z / (B * B))) by (field; lra).
      eapply Rle_trans; [apply Rabs_triang|]. eapply Rle_trans; [apply Rplus_le_compat_r, Rabs_triang|]. rewrite !Rabs_mult, Rabs_Ropp.
      rewrite (Rabs_right (wt i)) by lra. rewrite (Rabs_right (wt i - IZR W / B)) by lra.
      assert (T1 : wt i * Rabs (p / B - nd i ^ k) <= wt i * (2 * INR k * ulp)) by (apply Rmult_le_compat_l; assumption).
      assert (T2 : (wt i - IZR W / B) * Rabs (p / B) <= ulp * 1) by (apply Rmult_le_compat; [lra|apply Rabs_pos|lra|assumption]).
      lra. }
  specialize (G (seq 0 100) (fun i H => H)). rewrite seq_length in G. replace (INR 100) with 100 in G by (simpl; ring). exact G.
Qed.

(** one pass over the table for all moments up to [n] *)
Fixpoint powers (X p W : Z) (n : nat) : list Z :=
  (W * p)%Z :: match n with O => [] | S n' => powers X (Z.shiftr (p * X) 64) W n' end.
Fixpoint zadd (a b : list Z) : list Z := match a, b with x :: a', y :: b' => (x + y)%Z :: zadd a' b' | _, _ => [] end.
Fixpoint zmoments (l : list (Z * Z)) (n : nat) : list Z :=
  match l with
  | [] => repeat 0%Z (S n)
  | (W, X) :: l' => if Z.eqb W 0 then zmoments l' n else zadd (powers X B64 W n) (zmoments l' n)
  end.
Lemma powers_nth : forall X W n k j, (k <= n)%nat -> nth k (powers X (zpow X j) W n) 0%Z = (W * zpow X (j + k))%Z.
Proof.
  intros X W. induction n as [|n IH]; intros k j Hk.
  - destruct k; [simpl; rewrite Nat.add_0_r; reflexivity|lia].
  - destruct k; [cbn [powers nth]; rewrite Nat.add_0_r; reflexivity|]. cbn [powers nth].
    change (Z.shiftr (zpow X j * X) 64) with (zpow X (S j)). rewrite IH by lia. do 2 f_equal. lia.
Qed.
Lemma powers_length : forall X W n p, length (powers X p W n) = S n.
Proof. intros X W. induction n as [|n IH]; intro p; simpl; [reflexivity|]. rewrite IH. reflexivity. Qed.
Lemma zadd_nth : forall a b k, length a = length b -> nth k (zadd a b) 0%Z = (nth k a 0 + nth k b 0)%Z.
Proof. induction a as [|x a IH]; intros [|y b] k H; simpl in H; try discriminate; [destruct k; reflexivity|]. destruct k; simpl; [reflexivity|]. apply IH. lia. Qed.
Lemma zadd_length : forall a b, length a = length b -> length (zadd a b) = length a.
Proof. induction a as [|x a IH]; intros [|y b] H; simpl in *; try discriminate; [reflexivity|]. rewrite IH; lia. Qed.
Lemma zmoments_length : forall l n, length (zmoments l n) = S n.
Proof.
  induction l as [|[W X] l IH]; intro n; [apply repeat_length|]. cbn [zmoments]. destruct (Z.eqb W 0); [apply IH|].
  rewrite zadd_length; rewrite powers_length; [reflexivity|rewrite IH; reflexivity].
Qed.
Lemma zmoments_nth : forall l n k, (k <= n)%nat -> nth k (zmoments l n) 0%Z = zsum l k.
Proof.
  induction l as [|[W X] l IH]; intros n k Hk; [cbn [zmoments zsum]; apply nth_repeat|]. cbn [zmoments zsum].
  destruct (Z.eqb_spec W 0) as [->|_]; [rewrite IH by assumption; lia|].
  rewrite zadd_nth by (rewrite powers_length, zmoments_length; reflexivity). rewrite IH by assumption.
  change B64 with (zpow X 0) at 1. rewrite powers_nth by assumption. reflexivity.
Qed.

(** the promised accuracy of moment [k], as a denominator *)
Definition inv_delta (k : nat) : Z := if Nat.leb k 11 then (10 ^ 15)%Z else if Nat.leb k 30 then (10 ^ 10)%Z else if Nat.leb k 100 then (10 ^ 8)%Z else 50%Z.
Definition delta (k : nat) : R := / IZR (inv_delta k).
Definition exact_moment (k : nat) : R := if Nat.even k then 2 / INR (S k) else 0.
Definition ztwo (k : nat) : Z := if Nat.even k then (2 * B64 * B64)%Z else 0%Z.
Definition moment_ok (k : nat) (S : Z) : bool :=
  let n := Z.of_nat k in
  ((Z.abs (S * (n + 1) - ztwo k) + (n + 1) * (5 * n + 101) * B64) * inv_delta k <=? (n + 1) * B64 * B64)%Z.
Fixpoint all_ok (k : nat) (l : list Z) : bool := match l with [] => true | s :: l' => (moment_ok k s && all_ok (S k) l')%bool end.
Lemma all_ok_nth : forall l k j, all_ok k l = true -> (j < length l)%nat -> moment_ok (k + j) (nth j l 0%Z) = true.
Proof.
  induction l as [|s l IH]; intros k j H Hj; simpl in Hj; [lia|]. simpl in H. apply andb_prop in H. destruct H as [H1 H2].
  destruct j; [rewrite Nat.add_0_r; exact H1|]. simpl nth. specialize (IH (S k) j H2 ltac:(lia)). replace (k + S j)%nat with (S k + j)%nat by lia. exact IH.
Qed.
Definition moment_table : list Z := Eval vm_compute in zmoments zrows 100.
Lemma moment_table_eq : moment_table = zmoments zrows 100. Proof. vm_compute. reflexivity. Qed.
Lemma moment_table_ok : all_ok 0 moment_table = true. Proof. vm_compute. reflexivity. Qed.

Lemma inv_delta_pos : forall k, (0 < inv_delta k)%Z.
Proof. intro k. unfold inv_delta. destruct (Nat.leb k 11), (Nat.leb k 30), (Nat.leb k 100); reflexivity. Qed.
Lemma delta_pos : forall k, 0 < delta k.
Proof. intro k. apply Rinv_0_lt_compat, IZR_lt, inv_delta_pos. Qed.

Lemma weight_sum : isum (seq 0 100) wt <= 2.5.
Proof.
  pose proof (zsum_spec 0) as H. assert (E : moment 0 = isum (seq 0 100) wt).
  { unfold moment, qsum. apply isum_ext. intros i _. simpl. ring. }
  rewrite E in H. rewrite <- (zmoments_nth zrows 100 0) in H by lia. rewrite <- moment_table_eq in H.
  assert (B : IZR (nth 0 moment_table 0%Z) / (IZR B64 * IZR B64) <= 2.1).
  { assert (X : (nth 0 moment_table 0 * 10 <= 21 * (B64 * B64))%Z) by (vm_compute; discriminate).
    apply IZR_le in X. rewrite !mult_IZR in X. pose proof B64_pos as BP. set (b := IZR B64) in *. set (z := IZR (nth 0 moment_table 0%Z)) in *. clearbody b z.
    assert (PP : 0 < b * b) by (apply Rmult_lt_0_compat; assumption). apply Rmult_le_reg_r with (b * b); [assumption|].
    replace (z / (b * b) * (b * b)) with z by (field; lra). lra. }
  pose proof (Rle_abs (isum (seq 0 100) wt - IZR (nth 0 moment_table 0%Z) / (IZR B64 * IZR B64))) as RA. assert (U : 100 * ulp <= 0.1).
  { unfold ulp. apply Rmult_le_reg_r with (IZR B64); [apply B64_pos|]. rewrite Rmult_assoc, Rinv_l by (pose proof B64_pos; lra).
    assert (X : (1000 <= B64)%Z) by (vm_compute; discriminate). apply IZR_le in X. lra. }
  simpl INR in H. lra.
Qed.

(** ** Every moment up to 100 is that of the integral, to the promised accuracy *)
Lemma moment_small : forall k, (k <= 100)%nat -> Rabs (moment k - exact_moment k) <= delta k.
Proof.
  intros k Hk. pose proof (zsum_spec k) as H. pose proof (all_ok_nth moment_table 0 k moment_table_ok) as C.
  rewrite moment_table_eq, zmoments_length in C. specialize (C ltac:(lia)). rewrite zmoments_nth in C by assumption. simpl Nat.add in C.
  unfold moment_ok in C. apply Z.leb_le in C. set (zs := zsum zrows k) in *. clearbody zs.
  apply IZR_le in C. rewrite !mult_IZR, !plus_IZR, !mult_IZR, abs_IZR, minus_IZR, !mult_IZR, !plus_IZR, !mult_IZR, <- INR_IZR_INZ in C.
  pose proof weight_sum as WS. pose proof (pos_INR k) as KP. pose proof B64_pos as BP. pose proof (IZR_lt _ _ (inv_delta_pos k)) as DP.
  assert (ET : exact_moment k = IZR (ztwo k) / ((INR k + 1) * IZR B64 * IZR B64)).
  { unfold exact_moment, ztwo. rewrite S_INR. destruct (Nat.even k); [rewrite !mult_IZR; field; split; lra|field; split; lra]. }
  rewrite ET. unfold delta, ulp in *. set (B := IZR B64) in *. set (T := IZR (ztwo k)) in *. set (n := INR k) in *. set (V := IZR (inv_delta k)) in *.
  set (ws := isum (seq 0 100) wt) in *. set (s := IZR zs) in *. set (m := moment k) in *. clearbody B T n V ws s m.
  assert (D1 : Rabs (s / (B * B) - T / ((n + 1) * B * B)) + (5 * n + 101) * / B <= / V).
  { replace (s / (B * B) - T / ((n + 1) * B * B)) with ((s * (n + 1) - T) * / ((n + 1) * (B * B))) by (field; split; lra).
    assert (PP : 0 < (n + 1) * (B * B)) by (repeat apply Rmult_lt_0_compat; lra).
    rewrite Rabs_mult, (Rabs_right (/ _)) by (left; apply Rinv_0_lt_compat; exact PP).
    apply Rmult_le_reg_r with ((n + 1) * (B * B) * V); [apply Rmult_lt_0_compat; lra|].
    replace ((Rabs (s * (n + 1) - T) * / ((n + 1) * (B * B)) + (5 * n + 101) * / B) * ((n + 1) * (B * B) * V)) with ((Rabs (s * (n + 1) - T) + (n + 1) * (5 * n + 101) * B) * V) by (field; split; lra).
    replace (/ V * ((n + 1) * (B * B) * V)) with ((n + 1) * B * B) by (field; lra). exact C. }
  assert (D2 : (2 * n * ws + 100) * / B <= (5 * n + 101) * / B).
  { apply Rmult_le_compat_r; [left; apply Rinv_0_lt_compat; assumption|]. nra. }
  replace (m - T / ((n + 1) * B * B)) with ((m - s / (B * B)) + (s / (B * B) - T / ((n + 1) * B * B))) by ring.
  eapply Rle_trans; [apply Rabs_triang|]. lra.
Qed.
