(** C107: the explicit finite-difference pricer computed with binary64 arithmetic. *)
From Coq Require Import ZArith Reals Lra Lia List Bool Psatz.
From Flocq Require Import Core.Core IEEE754.BinarySingleNaN.
From Verif Require Import Res DateModel PayoffModel FdModel FdProofs FdProps F64Model F64Base F64Order F64RootModel F64Root F64QuadModel F64Quad F64Sim F64PayModel F64Pay F64Day F64FdModel.
Import ListNotations.
Open Scope R_scope.

(** ** Sums of two and three products *)
Definition cap : R := bpow radix2 1000.
Lemma cap_big : 1 <= cap. Proof. unfold cap. change 1 with (bpow radix2 0). apply bpow_le. lia. Qed.
Lemma bpow_4cap : bpow radix2 1002 = 4 * cap. Proof. unfold cap. change 1002%Z with (2 + 1000)%Z. rewrite bpow_plus. change (bpow radix2 2) with 4. ring. Qed.
Lemma mul_near x y : fin x -> fin y -> Rabs (val x) <= 4 -> Rabs (val y) <= cap ->
  fin (fmul x y) /\ Rabs (val (fmul x y)) <= bpow radix2 1002 /\ near (1 + u) (Rabs (val x * val y)) eta (val (fmul x y)) (val x * val y).
Proof.
  intros X Y Bx By. assert (B : Rabs (val x * val y) <= bpow radix2 1002). { rewrite bpow_4cap, Rabs_mult. apply Rmult_le_compat; try apply Rabs_pos; assumption. }
  destruct (rnd_cap 1002 _ ltac:(lia) B) as [B1 B2]. destruct (fmul_R x y X Y B2) as [A E]. rewrite E. split; [exact A|]. split; [exact B1|].
  pose proof (near_rnd 1 _ 0 _ _ (Rle_refl 1) (Rle_refl 0) (near_self (val x * val y))) as H. rewrite Rmult_1_l, Rmult_0_l, Rplus_0_l in H. exact H.
Qed.
Lemma add_near e x y g m w S m' w' S' : (1000 <= e < 1010)%Z -> fin x -> fin y -> Rabs (val x) <= bpow radix2 e -> Rabs (val y) <= bpow radix2 e -> 1 <= g -> 0 <= w -> 0 <= w' ->
  near g m w (val x) S -> near g m' w' (val y) S' ->
  fin (fadd x y) /\ Rabs (val (fadd x y)) <= bpow radix2 (e + 1) /\ near (g * (1 + u)) (m + m') ((w + w') * (1 + u)) (val (fadd x y)) (S + S').
Proof.
  intros He X Y Bx By G W W' H H'. assert (B : Rabs (val x + val y) <= bpow radix2 (e + 1)) by (rewrite dbl_bpow; pose proof (Rabs_triang (val x) (val y)); lra).
  destruct (rnd_cap (e + 1) _ ltac:(lia) B) as [B1 B2]. destruct (fadd_R x y X Y B2) as [A E]. rewrite E. split; [exact A|]. split; [exact B1|].
  destruct (rnd_plus_err (val x) (val y) (val_fmt x) (val_fmt y)) as (d & D & ->). apply near_rel; [exact G|lra|exact D|]. apply near_add; assumption.
Qed.
Lemma sum2_near a x b y : fin a -> fin x -> fin b -> fin y -> Rabs (val a) <= 4 -> Rabs (val x) <= cap -> Rabs (val b) <= 4 -> Rabs (val y) <= cap ->
  let s := fadd (fmul a x) (fmul b y) in
  fin s /\ Rabs (val s) <= bpow radix2 1003 /\ near ((1 + u) ^ 2) (Rabs (val a * val x) + Rabs (val b * val y)) (3 * eta) (val s) (val a * val x + val b * val y).
Proof.
  intros A X B Y Ba Bx Bb By s. destruct (mul_near a x A X Ba Bx) as (F1 & C1 & N1). destruct (mul_near b y B Y Bb By) as (F2 & C2 & N2).
  pose proof u_pos. pose proof u_tiny. pose proof eta_pos as E0.
  destruct (add_near 1002 _ _ (1 + u) _ eta _ _ eta _ ltac:(lia) F1 F2 C1 C2 ltac:(lra) ltac:(lra) ltac:(lra) N1 N2) as (F3 & C3 & N3).
  split; [exact F3|]. split; [exact C3|]. eapply near_weak; [| |exact N3]; [right; ring|nra].
Qed.
Lemma sum3_near a x b y c z : fin a -> fin x -> fin b -> fin y -> fin c -> fin z -> Rabs (val a) <= 4 -> Rabs (val x) <= cap -> Rabs (val b) <= 4 -> Rabs (val y) <= cap -> Rabs (val c) <= 4 -> Rabs (val z) <= cap ->
  let s := fadd (fadd (fmul a x) (fmul b y)) (fmul c z) in
  fin s /\ near ((1 + u) ^ 3) (Rabs (val a * val x) + Rabs (val b * val y) + Rabs (val c * val z)) (6 * eta) (val s) (val a * val x + val b * val y + val c * val z).
Proof.
  intros A X B Y C Z Ba Bx Bb By Bc Bz s. destruct (sum2_near a x b y A X B Y Ba Bx Bb By) as (F1 & C1 & N1). destruct (mul_near c z C Z Bc Bz) as (F2 & C2 & N2).
  pose proof u_pos. pose proof u_tiny. pose proof eta_pos as E0.
  assert (N2' : near ((1 + u) ^ 2) (Rabs (val c * val z)) eta (val (fmul c z)) (val c * val z)) by (eapply near_weak; [| |exact N2]; [nra|lra]).
  assert (C2' : Rabs (val (fmul c z)) <= bpow radix2 1003) by (apply Rle_trans with (1 := C2), bpow_le; lia).
  destruct (add_near 1003 _ _ ((1 + u) ^ 2) _ (3 * eta) _ _ eta _ ltac:(lia) F1 F2 C1 C2' ltac:(nra) ltac:(lra) ltac:(lra) N1 N2') as (F3 & C3 & N3).
  split; [exact F3|]. eapply near_weak; [| |exact N3]; [right; ring|nra].
Qed.

(** ** One step, entry by entry *)
Definition nth64 (v : list f64) (i : nat) : f64 := nth i v nan.
Definition row64 (c d b : f64) (v : list f64) (i : nat) : f64 :=
  match i with
  | O => fadd (fmul d (nth64 v 0)) (fmul b (nth64 v 1))
  | S j => if (S i =? length v)%nat then fadd (fmul c (nth64 v j)) (fmul d (nth64 v i))
           else fadd (fadd (fmul c (nth64 v j)) (fmul d (nth64 v i))) (fmul b (nth64 v (S i)))
  end.
Lemma tri_inner64_spec c d b : forall v p, length (tri_inner64 c d b p v) = length v /\ forall i, (i < length v)%nat ->
  nth64 (tri_inner64 c d b p v) i = row64 c d b (p :: v) (S i).
Proof.
  induction v as [|x v IH]; intros p; [split; [reflexivity|cbn; lia]|]. destruct v as [|y v].
  - split; [reflexivity|]. intros i Hi. cbn [length] in Hi. assert (i = O) as -> by lia. reflexivity.
  - destruct (IH x) as [L H]. split; [cbn [tri_inner64 length]; cbn [length] in L; f_equal; exact L|].
    intros [|i] Hi; [reflexivity|]. change (nth64 (tri_inner64 c d b p (x :: y :: v)) (S i)) with (nth64 (tri_inner64 c d b x (y :: v)) i). rewrite H by (cbn [length] in *; lia). reflexivity.
Qed.
Lemma tri_mul64_spec c d b v : (2 <= length v)%nat -> exists w, tri_mul64 c d b v = Ret w /\ length w = length v /\ forall i, (i < length v)%nat -> nth64 w i = row64 c d b v i.
Proof.
  intros L. destruct v as [|x [|y v]]; cbn [length] in L; try lia. eexists. split; [reflexivity|]. destruct (tri_inner64_spec c d b (y :: v) x) as [L1 H]. split; [cbn [length] in *; f_equal; exact L1|].
  intros [|i] Hi; [reflexivity|]. cbn [length] in Hi. unfold nth64 at 1. cbn [nth]. apply H. cbn [length]. lia.
Qed.
Lemma add_at64_spec i x v : (i < length v)%nat -> exists w, add_at64 i x v = Ret w /\ length w = length v /\
  forall k, nth64 w k = if (k =? i)%nat then fadd (nth64 v k) x else nth64 v k.
Proof.
  intros H. unfold add_at64. destruct (nth_error v i) as [y|] eqn:E; [|apply nth_error_None in E; lia]. eexists. split; [reflexivity|].
  destruct (nth_error_split v i E) as (l1 & l2 & -> & L). clear E H.
  assert (F : firstn i (l1 ++ y :: l2) = l1) by (rewrite <- L, firstn_app, Nat.sub_diag, firstn_all; apply app_nil_r).
  assert (K : skipn (S i) (l1 ++ y :: l2) = l2).
  { change (y :: l2) with ([y] ++ l2). rewrite app_assoc. rewrite skipn_app, skipn_all2 by (rewrite app_length; cbn; lia). rewrite app_length. cbn [length]. replace (S i - (length l1 + 1))%nat with O by lia. reflexivity. }
  rewrite F, K. split; [rewrite !app_length; reflexivity|]. unfold nth64.
  intros k. destruct (Nat.eqb_spec k i) as [->|N].
  - rewrite !app_nth2 by lia. rewrite L, Nat.sub_diag. reflexivity.
  - destruct (Nat.lt_ge_cases k i) as [Q|Q]; [rewrite !app_nth1 by lia; reflexivity|]. rewrite !app_nth2 by lia. destruct (k - length l1)%nat eqn:Z; [lia|]. reflexivity.
Qed.

(** what stands left and right of entry i of a step: a neighbour, or the boundary value on the
    side where the option type has one, or nothing *)
Definition left_of {A} (tf : type_flag) (n : nat) (v : nat -> A) (bd : A) (i : nat) : option A :=
  match i with O => match tf with Put => Some bd | Call => None end | S j => Some (v j) end.
Definition right_of {A} (tf : type_flag) (n : nat) (v : nat -> A) (bd : A) (i : nat) : option A :=
  if (S i =? n)%nat then match tf with Call => Some bd | Put => None end else Some (v (S i)).
Definition oval (x : option f64) : R := match x with Some x => val x | None => 0 end.
Definition ofin (x : option f64) : Prop := match x with Some x => fin x | None => True end.
Definition oR (x : option R) : R := match x with Some x => x | None => 0 end.

Section Step.
  Variable exp64 ln64 : f64 -> f64.
  Variable g : fd64.
  Let n := (h_np g - 1)%nat.
  Let c := sub64 ln64 g.
  Let d := diag64 ln64 g.
  Let b := super64 ln64 g.
  Definition bd64 t := boundary64 exp64 ln64 g t.
  Hypothesis N : (3 <= h_np g)%nat.
  Hypotheses (Fc : fin c) (Fd : fin d) (Fb : fin b) (Bc : Rabs (val c) <= 4) (Bd : Rabs (val d) <= 4) (Bb : Rabs (val b) <= 4).

  (** the values before early exercise *)
  Definition lin64 (t : nat) (v : list f64) : res (list f64) := let! v1 := tri_mul64 c d b v in add_boundary64 exp64 ln64 g t v1.
  Lemma step64_lin t v : explicit_step64 exp64 ln64 g t v = let! w := lin64 t v in Ret (if early64 g then american64 exp64 ln64 g w t else w).
  Proof. unfold explicit_step64, lin64, c, d, b. destruct (tri_mul64 _ _ _ v); reflexivity. Qed.

  Lemma lin64_near t v : length v = n -> (forall i, (i < n)%nat -> fin (nth64 v i) /\ Rabs (val (nth64 v i)) <= cap) ->
    fin (bd64 t) -> Rabs (val (bd64 t)) <= cap ->
    exists w, lin64 t v = Ret w /\ length w = n /\ forall i, (i < n)%nat ->
      let l := oval (left_of (h_tf g) n (nth64 v) (bd64 t) i) in let r := oval (right_of (h_tf g) n (nth64 v) (bd64 t) i) in
      fin (nth64 w i) /\ near ((1 + u) ^ 3) (Rabs (val c * l) + Rabs (val d * val (nth64 v i)) + Rabs (val b * r)) (6 * eta) (val (nth64 w i)) (val c * l + val d * val (nth64 v i) + val b * r).
  Proof.
    intros L V FB BB. assert (N2 : (2 <= n)%nat) by (unfold n; lia). unfold lin64. destruct (tri_mul64_spec c d b v ltac:(lia)) as (v1 & -> & L1 & H1). cbn [bind].
    pose proof u_pos as U0. pose proof u_tiny as U1. pose proof eta_pos as E0.
    assert (W2 : forall m x y, near ((1 + u) ^ 2) m (3 * eta) x y -> near ((1 + u) ^ 3) m (6 * eta) x y).
    { intros m x y H. eapply near_weak; [| |exact H]; [|lra]. change ((1 + u) ^ 3) with ((1 + u) * (1 + u) ^ 2). nra. }
    assert (Z : forall a, a * 0 = 0) by (intros; ring).
    unfold add_boundary64. fold c b. fold (bd64 t). destruct (h_tf g) eqn:TF.
    - destruct (Nat.ltb_spec (h_np g) 2); [lia|]. destruct (add_at64_spec (h_np g - 2) (fmul b (bd64 t)) v1 ltac:(unfold n in *; lia)) as (w & -> & LW & W).
      exists w. split; [reflexivity|]. split; [lia|]. intros i Hi. rewrite W, H1 by lia. unfold left_of, right_of. replace (h_np g - 2)%nat with (Nat.pred n) by (unfold n; lia).
      destruct i as [|j]; cbn [oval].
      + destruct (Nat.eqb_spec 0 (Nat.pred n)); [lia|]. destruct (Nat.eqb_spec 1 n); [lia|]. cbn [oval row64]. destruct (V 0%nat ltac:(lia)) as [F0 B0]. destruct (V 1%nat ltac:(lia)) as [F1 B1].
        destruct (sum2_near d (nth64 v 0) b (nth64 v 1) Fd F0 Fb F1 Bd B0 Bb B1) as (F & _ & NR). split; [exact F|]. rewrite Z, Rabs_R0, !Rplus_0_l. apply W2, NR.
      + destruct (V j ltac:(lia)) as [F0 B0]. destruct (V (S j) ltac:(lia)) as [F1 B1]. unfold row64. rewrite L. destruct (Nat.eqb_spec (S (S j)) n) as [Q|Q].
        * destruct (Nat.eqb_spec (S j) (Nat.pred n)); [|lia]. cbn [oval]. apply (sum3_near c (nth64 v j) d (nth64 v (S j)) b (bd64 t)); assumption.
        * destruct (Nat.eqb_spec (S j) (Nat.pred n)); [lia|]. cbn [oval]. destruct (V (S (S j)) ltac:(lia)) as [F2 B2]. apply (sum3_near c (nth64 v j) d (nth64 v (S j)) b (nth64 v (S (S j)))); assumption.
    - destruct (add_at64_spec 0 (fmul c (bd64 t)) v1 ltac:(lia)) as (w & -> & LW & W).
      exists w. split; [reflexivity|]. split; [lia|]. intros i Hi. rewrite W, H1 by lia. unfold left_of, right_of.
      destruct i as [|j]; cbn [oval].
      + destruct (Nat.eqb_spec 1 n); [lia|]. change (0 =? 0)%nat with true. cbv iota. cbn [oval row64]. destruct (V 0%nat ltac:(lia)) as [F0 B0]. destruct (V 1%nat ltac:(lia)) as [F1 B1].
        destruct (sum3_near d (nth64 v 0) b (nth64 v 1) c (bd64 t) Fd F0 Fb F1 Fc FB Bd B0 Bb B1 Bc BB) as (F & NR). split; [exact F|].
        replace (val c * val (bd64 t) + val d * val (nth64 v 0) + val b * val (nth64 v 1)) with (val d * val (nth64 v 0) + val b * val (nth64 v 1) + val c * val (bd64 t)) by ring.
        replace (Rabs (val c * val (bd64 t)) + Rabs (val d * val (nth64 v 0)) + Rabs (val b * val (nth64 v 1))) with (Rabs (val d * val (nth64 v 0)) + Rabs (val b * val (nth64 v 1)) + Rabs (val c * val (bd64 t))) by ring. exact NR.
      + destruct (V j ltac:(lia)) as [F0 B0]. destruct (V (S j) ltac:(lia)) as [F1 B1]. unfold row64. rewrite L.
        destruct (Nat.eqb_spec (S j) 0) as [Q0|_]; [lia|]. destruct (Nat.eqb_spec (S (S j)) n) as [Q|Q].
        * cbn [oval]. rewrite Z, Rabs_R0, !Rplus_0_r. destruct (sum2_near c (nth64 v j) d (nth64 v (S j)) Fc F0 Fd F1 Bc B0 Bd B1) as (F & _ & NR). split; [exact F|]. apply W2, NR.
        * cbn [oval]. destruct (V (S (S j)) ltac:(lia)) as [F2 B2]. apply (sum3_near c (nth64 v j) d (nth64 v (S j)) b (nth64 v (S (S j)))); assumption.
  Qed.
End Step.

(** ** Early exercise and the time loop *)
Lemma fmax_fin x y : fin x -> fin y -> fin (fmax x y) /\ val (fmax x y) = Rmax (val x) (val y).
Proof.
  intros X Y. unfold fmax. rewrite (fin_num x X), (fin_num y Y). destruct (flt x y) eqn:L.
  - split; [exact Y|]. apply (flt_R x y X Y) in L. rewrite Rmax_right; lra.
  - split; [exact X|]. rewrite Rmax_left; [reflexivity|]. apply Rnot_lt_le. intros H. apply (flt_R x y X Y) in H. congruence.
Qed.
Lemma nth_seq64 (f : nat -> f64) k i : (i < k)%nat -> nth64 (map f (seq 1 k)) i = f (S i).
Proof. intros H. unfold nth64. rewrite (nth_indep _ nan (f O)) by (rewrite map_length, seq_length; exact H). rewrite map_nth, seq_nth by exact H. reflexivity. Qed.
Lemma american64_nth exp64 ln64 g w t i : (i < h_np g - 1)%nat -> nth64 (american64 exp64 ln64 g w t) i = fmax (nth64 w i) (exercise64 exp64 ln64 g t (S i)).
Proof. intros H. unfold american64. rewrite (nth_seq64 (fun i => fmax (nth (i - 1) w nan) (exercise64 exp64 ln64 g t i))) by exact H. replace (S i - 1)%nat with i by lia. reflexivity. Qed.
Lemma american64_length exp64 ln64 g w t : length (american64 exp64 ln64 g w t) = (h_np g - 1)%nat.
Proof. unfold american64. rewrite map_length, seq_length. reflexivity. Qed.
Lemma initial64_nth exp64 ln64 g i : (i < h_np g - 1)%nat -> nth64 (initial64 exp64 ln64 g) i = payoff64 g (exp64 (node64 ln64 g (S i))).
Proof. intros H. unfold initial64. apply (nth_seq64 (fun i => payoff64 g (exp64 (node64 ln64 g i)))), H. Qed.
Lemma initial64_length exp64 ln64 g : length (initial64 exp64 ln64 g) = (h_np g - 1)%nat.
Proof. unfold initial64. rewrite map_length, seq_length. reflexivity. Qed.
Lemma fold_rel2 {A B} (step : nat -> A -> res A) (step' : nat -> B -> res B) (P : nat -> A -> B -> Prop) : forall k t v v',
  P t v v' -> (forall s x x', (t <= s < t + k)%nat -> P s x x' -> exists w w', step (S s) x = Ret w /\ step' (S s) x' = Ret w' /\ P (S s) w w') ->
  exists w w', fold_left (fun acc t => let! v := acc in step t v) (seq (S t) k) (Ret v) = Ret w /\
    fold_left (fun acc t => let! v := acc in step' t v) (seq (S t) k) (Ret v') = Ret w' /\ P (t + k)%nat w w'.
Proof.
  induction k as [|k IH]; intros t v v' H Q; [exists v, v'; rewrite Nat.add_0_r; repeat split; assumption|].
  destruct (Q t v v' ltac:(lia) H) as (w & w' & E & E' & R). cbn [seq fold_left bind]. rewrite E, E'.
  destruct (IH (S t) w w' R) as (z & z' & F & F' & Z); [intros; apply Q; [lia|assumption]|]. exists z, z'. split; [exact F|]. split; [exact F'|].
  replace (t + S k)%nat with (S t + k)%nat by lia. exact Z.
Qed.

(** ** The computed weights *)
Lemma rel_nonneg a e : Rabs e <= u -> 0 <= a * (1 + e) -> 0 <= a.
Proof. intros H G. pose proof u_small. assert (0 < 1 + e) by (apply Rabs_le_inv in H; lra). destruct (Rle_lt_dec 0 a); [assumption|]. nra. Qed.
Lemma rel_le a e : Rabs e <= u -> 0 <= a -> a * (1 + e) <= a * (1 + u).
Proof. intros H G. apply Rabs_le_inv in H. nra. Qed.
Lemma weights64_sum ln64 g : fin (sub64 ln64 g) -> fin (diag64 ln64 g) -> fin (super64 ln64 g) ->
  0 <= val (sub64 ln64 g) -> 0 <= val (diag64 ln64 g) -> 0 <= val (super64 ln64 g) ->
  val (sub64 ln64 g) + val (diag64 ln64 g) + val (super64 ln64 g) <= 1 + u.
Proof.
  unfold sub64, diag64, super64. set (x := cx64 ln64 g). set (y := cy64 ln64 g). intros Fs Fd Fp.
  destruct (fsub_fin _ _ Fs) as (X & Y & -> & _). destruct (fadd_fin _ _ Fp) as (_ & _ & -> & _). destruct (fsub_fin _ _ Fd) as (_ & F2 & -> & _). destruct one_R as [_ ->].
  destruct (fmul_fin _ _ F2) as (_ & _ & -> & _). destruct two_R as [_ ->]. rewrite (rnd_id (2 * val x)) by (apply fmt_2, val_fmt).
  destruct (rnd_minus_err (val x) (val y) (val_fmt x) (val_fmt y)) as (e1 & E1 & ->). destruct (rnd_plus_err (val x) (val y) (val_fmt x) (val_fmt y)) as (e2 & E2 & ->).
  destruct (rnd_minus_err 1 (2 * val x) (int_fmt 1 ltac:(lia)) (fmt_2 _ (val_fmt x))) as (e3 & E3 & ->). intros G1 G3 G2.
  pose proof (rel_le _ _ E1 (rel_nonneg _ _ E1 G1)). pose proof (rel_le _ _ E2 (rel_nonneg _ _ E2 G2)). pose proof (rel_le _ _ E3 (rel_nonneg _ _ E3 G3)). lra.
Qed.

Definition growth (k : nat) (X : R) : R := (1 + u) ^ (4 * k) * (X + 6 * INR k * eta).
Lemma growth_S k X : 0 <= X -> (1 + u) ^ 4 * growth k X + 6 * eta <= growth (S k) X /\ growth k X <= growth (S k) X /\ X <= growth k X.
Proof.
  intros H. pose proof u_pos as U. pose proof eta_pos as E. unfold growth. rewrite S_INR. replace (4 * S k)%nat with (4 + 4 * k)%nat by lia. rewrite pow_add.
  assert (P : 1 <= (1 + u) ^ (4 * k)) by (apply pow_R1_Rle; lra). assert (P4 : 1 <= (1 + u) ^ 4) by (apply pow_R1_Rle; lra). pose proof (pos_INR k) as K.
  set (a := (1 + u) ^ (4 * k)) in *. set (c := (1 + u) ^ 4) in *. clearbody a c. assert (Q : 0 <= 6 * INR k * eta) by nra. set (q := 6 * INR k * eta) in *.
  replace (6 * (INR k + 1) * eta) with (q + 6 * eta) by (unfold q; ring). assert (AC : 1 <= c * a) by nra. assert (0 <= a * (X + q)) by nra. split; [nra|]. split; [|nra].
  apply Rle_trans with (1 * (a * (X + (q + 6 * eta)))); [nra|]. rewrite Rmult_assoc. apply Rmult_le_compat_r; [nra|exact P4].
Qed.
Lemma growth_mono k n X : 0 <= X -> (k <= n)%nat -> growth k X <= growth n X.
Proof. intros H L. induction L as [|n L IH]; [lra|]. destruct (growth_S n X H) as (_ & Q & _). lra. Qed.

(** the value taken by a neighbour or a boundary *)
Lemma left_cases {A} tf n (v : nat -> A) bd i (Q : option A -> Prop) : Q None -> Q (Some bd) -> (forall j, (j < n)%nat -> Q (Some (v j))) -> (i < n)%nat -> Q (left_of tf n v bd i).
Proof. intros H1 H2 H3 Hi. unfold left_of. destruct i; [destruct tf; assumption|]. apply H3. lia. Qed.
Lemma right_cases {A} tf n (v : nat -> A) bd i (Q : option A -> Prop) : Q None -> Q (Some bd) -> (forall j, (j < n)%nat -> Q (Some (v j))) -> (i < n)%nat -> Q (right_of tf n v bd i).
Proof. intros H1 H2 H3 Hi. unfold right_of. destruct (Nat.eqb_spec (S i) n); [destruct tf; assumption|]. apply H3. lia. Qed.

(** With computed weights that are not negative, the scheme is stable in binary64 too: whatever
    [exp] and [ln] return, no value exceeds the largest input by more than a factor
    [(1 + u) ^ (4 k)] after k steps, and nothing overflows. *)
Theorem explicit64_bounded : forall exp64 ln64 g X, (3 <= h_np g)%nat ->
  fin (sub64 ln64 g) -> fin (diag64 ln64 g) -> fin (super64 ln64 g) ->
  0 <= val (sub64 ln64 g) -> 0 <= val (diag64 ln64 g) -> 0 <= val (super64 ln64 g) ->
  (forall i, (1 <= i < h_np g)%nat -> fin (payoff64 g (exp64 (node64 ln64 g i))) /\ Rabs (val (payoff64 g (exp64 (node64 ln64 g i)))) <= X) ->
  (forall t, (1 <= t <= h_nt g)%nat -> fin (boundary64 exp64 ln64 g t) /\ Rabs (val (boundary64 exp64 ln64 g t)) <= X) ->
  (early64 g = true -> forall t i, (1 <= t <= h_nt g)%nat -> (1 <= i < h_np g)%nat -> fin (exercise64 exp64 ln64 g t i) /\ Rabs (val (exercise64 exp64 ln64 g t i)) <= X) ->
  (1 + u) ^ (4 * h_nt g) * (X + 6 * INR (h_nt g) * eta) <= bpow radix2 1000 ->
  forall k, (k <= h_nt g)%nat -> exists w, values64 exp64 ln64 g k = Ret w /\ length w = (h_np g - 1)%nat /\
    forall i, (i < h_np g - 1)%nat -> fin (nth i w nan) /\ Rabs (val (nth i w nan)) <= (1 + u) ^ (4 * k) * (X + 6 * INR k * eta).
Proof.
  intros exp64 ln64 g X N Fc Fd Fb Gc Gd Gb I B A CAP k K. fold cap in CAP. fold (growth (h_nt g) X) in CAP. pose proof (weights64_sum ln64 g Fc Fd Fb Gc Gd Gb) as WS.
  pose proof u_pos as U0. pose proof u_tiny as U1. pose proof eta_pos as E0.
  assert (X0 : 0 <= X). { destruct (I 1%nat ltac:(lia)) as [_ H]. pose proof (Rabs_pos (val (payoff64 g (exp64 (node64 ln64 g 1))))). lra. }
  pose (P := fun (t : nat) (v v' : list f64) => length v = (h_np g - 1)%nat /\ forall i, (i < h_np g - 1)%nat -> fin (nth64 v i) /\ Rabs (val (nth64 v i)) <= growth t X).
  destruct (fold_rel2 (explicit_step64 exp64 ln64 g) (explicit_step64 exp64 ln64 g) (fun t v v' => v' = v /\ P t v v) k O (initial64 exp64 ln64 g) (initial64 exp64 ln64 g)) as (w & w' & E & _ & _ & L & H).
  - split; [reflexivity|]. split; [apply initial64_length|]. intros i Hi. rewrite initial64_nth by exact Hi. destruct (I (S i) ltac:(lia)) as [F Q]. split; [exact F|]. destruct (growth_S O X X0) as (_ & _ & Z). lra.
  - intros s v v' Hs (-> & L & V). rewrite step64_lin.
    pose proof (growth_mono s (h_nt g) X X0 ltac:(lia)) as GM. destruct (growth_S s X X0) as (G1 & G2 & G3).
    destruct (B (S s) ltac:(lia)) as [FB BB]. fold (bd64 exp64 ln64 g (S s)) in FB, BB. pose proof (conj Fc Fd) as _.
    destruct (lin64_near exp64 ln64 g N Fc Fd Fb ltac:(rewrite Rabs_pos_eq; lra) ltac:(rewrite Rabs_pos_eq; lra) ltac:(rewrite Rabs_pos_eq; lra) (S s) v L) as (w & E & LW & W);
      [intros i Hi; destruct (V i Hi) as [F Q]; split; [exact F|lra]|exact FB|lra|].
    rewrite E. cbn [bind]. assert (ROW : forall i, (i < h_np g - 1)%nat -> fin (nth64 w i) /\ Rabs (val (nth64 w i)) <= growth (S s) X).
    { intros i Hi. destruct (W i Hi) as (F & NR & NM). split; [exact F|].
      set (l := oval (left_of (h_tf g) (h_np g - 1) (nth64 v) (bd64 exp64 ln64 g (S s)) i)) in *. set (r := oval (right_of (h_tf g) (h_np g - 1) (nth64 v) (bd64 exp64 ln64 g (S s)) i)) in *.
      assert (BL : Rabs l <= growth s X). { apply (left_cases (h_tf g) (h_np g - 1) (nth64 v) (bd64 exp64 ln64 g (S s)) i (fun o => Rabs (oval o) <= growth s X)); [cbn; rewrite Rabs_R0; lra|cbn; lra|intros j Hj; apply V, Hj|exact Hi]. }
      assert (BR : Rabs r <= growth s X). { apply (right_cases (h_tf g) (h_np g - 1) (nth64 v) (bd64 exp64 ln64 g (S s)) i (fun o => Rabs (oval o) <= growth s X)); [cbn; rewrite Rabs_R0; lra|cbn; lra|intros j Hj; apply V, Hj|exact Hi]. }
      destruct (V i Hi) as [_ BX]. apply near_abs in NR. rewrite !Rabs_mult in *. rewrite !(Rabs_pos_eq (val _)) in NM by assumption. rewrite !(Rabs_pos_eq (val (sub64 _ _))), !(Rabs_pos_eq (val (diag64 _ _))), !(Rabs_pos_eq (val (super64 _ _))) in * by assumption.
      set (x := Rabs (val (nth64 v i))) in *. set (c := val (sub64 ln64 g)) in *. set (d := val (diag64 ln64 g)) in *. set (b := val (super64 ln64 g)) in *. set (G := growth s X) in *. clearbody l r x c d b.
      assert (M1 : c * Rabs l + d * x + b * Rabs r <= (1 + u) * G).
      { apply Rle_trans with ((c + d + b) * G); [|apply Rmult_le_compat_r; lra]. pose proof (Rmult_le_compat_l c _ _ Gc BL). pose proof (Rmult_le_compat_l d _ _ Gd BX). pose proof (Rmult_le_compat_l b _ _ Gb BR). lra. }
      set (mag := c * Rabs l + d * x + b * Rabs r) in *. assert (P3 : 1 <= (1 + u) ^ 3) by (apply pow_R1_Rle; lra). change ((1 + u) ^ 4) with ((1 + u) * (1 + u) ^ 3) in G1. nra. }
    do 2 eexists. split; [reflexivity|]. split; [reflexivity|]. split; [reflexivity|]. destruct (early64 g) eqn:EA; [|split; assumption].
    split; [apply american64_length|]. intros i Hi. rewrite american64_nth by exact Hi. destruct (ROW i Hi) as [F Q]. destruct (A eq_refl (S s) (S i) ltac:(lia) ltac:(lia)) as [FA QA].
    destruct (fmax_fin _ _ F FA) as [FM ->]. split; [exact FM|]. unfold Rmax. destruct (Rle_dec _ _); lra.
  - exists w. split; [exact E|]. split; [exact L|]. exact H.
Qed.
Print Assumptions explicit64_bounded.

(** ** Against the exact scheme *)
Definition exact_boundary (m : fd) (t : nat) : R :=
  let tau := INR t * (f_T m / INR (f_nt m)) in
  match f_tf m with Call => exp (x_max m) - f_k m * exp (- f_r m * tau) | Put => f_k m * exp (- f_r m * tau) - exp (x_min m) end.
Definition exact_exercise (m : fd) (t i : nat) : R := exp (f_r m * (INR t * (f_T m / INR (f_nt m)))) * FdModel.payoff m (exp (node m i)).
Lemma exact_row m t v : fd_valid m -> length v = (f_np m - 1)%nat -> exists w, explicit_lin m t v = Ret w /\ length w = length v /\ forall i, (i < length v)%nat ->
  nth i w 0 = (cx m - cy m) * oR (left_of (f_tf m) (f_np m - 1) (fun j => nth j v 0) (exact_boundary m t) i) + (1 - 2 * cx m) * nth i v 0
    + (cx m + cy m) * oR (right_of (f_tf m) (f_np m - 1) (fun j => nth j v 0) (exact_boundary m t) i).
Proof.
  intros V L. destruct (fd_lin_solves m t v V L) as ((w & E & LW & W) & _). exists w. split; [exact E|]. split; [exact LW|]. intros i Hi. rewrite W by exact Hi.
  assert (N : (3 <= f_np m)%nat) by apply V. unfold op, bweight, boundary, exact_boundary, left_of, right_of. destruct (f_tf m).
  - destruct (Nat.eqb_spec i (f_np m - 2)) as [->|Q].
    + destruct (Nat.eqb_spec (S (f_np m - 2)) (f_np m - 1)); [|lia]. cbn [oR]. rewrite (@nth_overflow R v (S (f_np m - 2)) 0) by lia. destruct (f_np m - 2)%nat; cbn [oR]; ring.
    + destruct (Nat.eqb_spec (S i) (f_np m - 1)); [lia|]. destruct i; cbn [oR]; ring.
  - destruct (Nat.eqb_spec i 0) as [->|Q].
    + destruct (Nat.eqb_spec 1 (f_np m - 1)); [lia|]. cbn [oR]. ring.
    + destruct i as [|j]; [lia|]. destruct (Nat.eqb_spec (S (S j)) (f_np m - 1)); cbn [oR]; [|ring]. rewrite (@nth_overflow R v (S (S j)) 0) by lia. ring.
Qed.

(** The computed ingredients are within [delta] (the three weights together), [eps] (payoffs,
    boundary and exercise values) and [gamma] (the discount factor) of the exact ones, which are
    at most [M]. *)
Record accurate (exp64 ln64 : f64 -> f64) (g : fd64) (m : fd) (delta eps gamma M : R) : Prop := {
  acc_shape : h_nt g = f_nt m /\ h_np g = f_np m /\ h_tf g = f_tf m /\ h_ex g = f_ex m;
  acc_fin : fin (sub64 ln64 g) /\ fin (diag64 ln64 g) /\ fin (super64 ln64 g);
  acc_weights : Rabs (val (sub64 ln64 g) - (cx m - cy m)) + Rabs (val (diag64 ln64 g) - (1 - 2 * cx m)) + Rabs (val (super64 ln64 g) - (cx m + cy m)) <= delta;
  acc_payoff : forall i, (1 <= i < f_np m)%nat -> fin (payoff64 g (exp64 (node64 ln64 g i))) /\
    Rabs (val (payoff64 g (exp64 (node64 ln64 g i))) - FdModel.payoff m (exp (node m i))) <= eps /\ Rabs (FdModel.payoff m (exp (node m i))) <= M;
  acc_boundary : forall t, (1 <= t <= f_nt m)%nat -> fin (boundary64 exp64 ln64 g t) /\ Rabs (val (boundary64 exp64 ln64 g t) - exact_boundary m t) <= eps /\ Rabs (exact_boundary m t) <= M;
  acc_exercise : early_exercise m = true -> forall t i, (1 <= t <= f_nt m)%nat -> (1 <= i < f_np m)%nat -> fin (exercise64 exp64 ln64 g t i) /\
    Rabs (val (exercise64 exp64 ln64 g t i) - exact_exercise m t i) <= eps /\ Rabs (exact_exercise m t i) <= M;
  acc_discount : fin (discount64 exp64 g) /\ Rabs (val (discount64 exp64 g) - exp (- f_r m * f_T m)) <= gamma
}.

Definition amp (delta : R) : R := (1 + delta) * (1 + u) ^ 3.
Definition err (delta M eps : R) (k : nat) : R := amp delta ^ k * (M + eps + 6 * INR k * eta).
Lemma err_S delta M eps k : 0 <= delta -> 0 <= M -> 0 <= eps -> amp delta * err delta M eps k + 6 * eta <= err delta M eps (S k) /\ err delta M eps k <= err delta M eps (S k) /\ M + eps <= err delta M eps k.
Proof.
  intros D HM HE. pose proof u_pos as U. pose proof eta_pos as E. unfold err. rewrite S_INR. cbn [pow].
  assert (A1 : 1 <= amp delta). { unfold amp. assert (1 <= (1 + u) ^ 3) by (apply pow_R1_Rle; lra). nra. }
  set (c := amp delta) in *. clearbody c. assert (P : 1 <= c ^ k) by (apply pow_R1_Rle; lra). pose proof (pos_INR k) as K. set (a := c ^ k) in *. clearbody a.
  assert (Q : 0 <= 6 * INR k * eta) by nra. set (q := 6 * INR k * eta) in *. replace (6 * (INR k + 1) * eta) with (q + 6 * eta) by (unfold q; ring).
  assert (AC : 1 <= c * a) by nra. assert (0 <= a * (M + eps + q)) by nra. split; [nra|]. split; [|nra].
  apply Rle_trans with (1 * (a * (M + eps + (q + 6 * eta)))); [nra|]. rewrite Rmult_assoc. apply Rmult_le_compat_r; [nra|exact A1].
Qed.
Lemma err_mono delta M eps k n : 0 <= delta -> 0 <= M -> 0 <= eps -> (k <= n)%nat -> err delta M eps k <= err delta M eps n.
Proof. intros D HM HE L. induction L as [|n L IH]; [lra|]. destruct (err_S delta M eps n D HM HE) as (_ & Q & _). lra. Qed.
Lemma max_close a b a' b' e : Rabs (a' - a) <= e -> Rabs (b' - b) <= e -> Rabs (Rmax a' b' - Rmax a b) <= e.
Proof. intros H1 H2. apply Rabs_le_inv in H1. apply Rabs_le_inv in H2. apply Rabs_le. unfold Rmax. destruct (Rle_dec a' b'), (Rle_dec a b); lra. Qed.
Lemma max_bound a b M : Rabs a <= M -> Rabs b <= M -> Rabs (Rmax a b) <= M.
Proof. intros. unfold Rmax. destruct (Rle_dec a b); assumption. Qed.
(** left and right values correspond *)
Definition corr (e M : R) (o : option f64) (x : option R) : Prop :=
  match o, x with Some a, Some y => fin a /\ Rabs (val a - y) <= e /\ Rabs y <= M | None, None => True | _, _ => False end.
Lemma corr_val e M o x : 0 <= e -> 0 <= M -> corr e M o x -> Rabs (oval o - oR x) <= e /\ Rabs (oR x) <= M.
Proof. intros E HM. destruct o, x; cbn; try tauto. intros _. rewrite Rminus_0_r, Rabs_R0. split; assumption. Qed.
Lemma term_close w' w v' v e M : Rabs (v' - v) <= e -> Rabs v <= M -> Rabs (w' * v' - w * v) <= Rabs w' * e + Rabs (w' - w) * M /\ Rabs (w' * v') <= Rabs w' * (M + e).
Proof.
  intros H B. split.
  - replace (w' * v' - w * v) with (w' * (v' - v) + (w' - w) * v) by ring. eapply Rle_trans; [apply Rabs_triang|]. rewrite !Rabs_mult. apply Rplus_le_compat; apply Rmult_le_compat_l; try apply Rabs_pos; assumption.
  - rewrite Rabs_mult. apply Rmult_le_compat_l; [apply Rabs_pos|]. apply near_abs in H. lra.
Qed.

Section Error.
  Variables (exp64 ln64 : f64 -> f64) (g : fd64) (m : fd) (delta eps gamma M : R).
  Hypotheses (V : fd_valid m) (ST : stable Explicit m) (ACC : accurate exp64 ln64 g m delta eps gamma M).
  Hypotheses (D1 : delta <= 1) (CAP : err delta M eps (f_nt m) <= cap).
  Let E k := err delta M eps k.
  Definition close (k : nat) (v64 : list f64) (v : list R) : Prop := length v64 = (f_np m - 1)%nat /\ length v = (f_np m - 1)%nat /\
    forall i, (i < f_np m - 1)%nat -> fin (nth64 v64 i) /\ Rabs (val (nth64 v64 i) - nth i v 0) <= E k - M /\ Rabs (nth i v 0) <= M.

  Lemma acc_signs : 0 <= delta /\ 0 <= eps /\ 0 <= M.
  Proof.
    assert (N : (3 <= f_np m)%nat) by apply V. destruct ACC as [_ _ W P _ _ _]. destruct (P 1%nat ltac:(lia)) as (_ & A & B).
    pose proof (Rabs_pos (val (sub64 ln64 g) - (cx m - cy m))). pose proof (Rabs_pos (val (diag64 ln64 g) - (1 - 2 * cx m))). pose proof (Rabs_pos (val (super64 ln64 g) - (cx m + cy m))).
    pose proof (Rabs_pos (val (payoff64 g (exp64 (node64 ln64 g 1))) - FdModel.payoff m (exp (node m 1)))). pose proof (Rabs_pos (FdModel.payoff m (exp (node m 1)))). split; [lra|]. split; lra.
  Qed.
  Lemma step_close s v64 v : (s < f_nt m)%nat -> close s v64 v -> exists w64 w, explicit_step64 exp64 ln64 g (S s) v64 = Ret w64 /\ explicit_step m (S s) v = Ret w /\ close (S s) w64 w.
  Proof.
    intros Hs (L64 & L & H). destruct acc_signs as (D0 & E0 & M0). destruct ACC as [(Snt & Snp & Stf & Sex) (Fc & Fd & Fb) W PAY BND EXE _]. clear PAY.
    pose proof u_pos as U0. pose proof u_tiny as U1. pose proof eta_pos as Eta0. destruct (stable_bounds Explicit m V ST) as (Y & X0 & X1).
    destruct (err_S delta M eps s D0 M0 E0) as (G1 & G2 & G3). pose proof (err_mono delta M eps s (f_nt m) D0 M0 E0 ltac:(lia)) as GM. fold (E s) (E (S s)) in *. fold (E (f_nt m)) in *.
    assert (N : (3 <= f_np m)%nat) by apply V.
    set (c := cx m - cy m) in *. set (d := 1 - 2 * cx m) in *. set (b := cx m + cy m) in *. assert (Cc : 0 <= c) by (unfold c; lra). assert (Cd : 0 <= d) by (unfold d; lra). assert (Cb : 0 <= b) by (unfold b; lra). assert (SUM : c + d + b = 1) by (unfold c, d, b; ring).
    set (c' := val (sub64 ln64 g)) in *. set (d' := val (diag64 ln64 g)) in *. set (b' := val (super64 ln64 g)) in *.
    assert (Wc : Rabs c' <= c + Rabs (c' - c)) by (pose proof (near_abs c' c _ (Rle_refl _)) as Q; rewrite (Rabs_pos_eq c) in Q by exact Cc; exact Q).
    assert (Wd : Rabs d' <= d + Rabs (d' - d)) by (pose proof (near_abs d' d _ (Rle_refl _)) as Q; rewrite (Rabs_pos_eq d) in Q by exact Cd; exact Q).
    assert (Wb : Rabs b' <= b + Rabs (b' - b)) by (pose proof (near_abs b' b _ (Rle_refl _)) as Q; rewrite (Rabs_pos_eq b) in Q by exact Cb; exact Q).
    pose proof (Rabs_pos (c' - c)) as Pc. pose proof (Rabs_pos (d' - d)) as Pd. pose proof (Rabs_pos (b' - b)) as Pb.
    destruct (BND (S s) ltac:(lia)) as (FB & EB & BB). fold (bd64 exp64 ln64 g (S s)) in FB, EB.
    assert (CB : Rabs (val (bd64 exp64 ln64 g (S s))) <= cap) by (apply near_abs in EB; lra).
    assert (N64 : (3 <= h_np g)%nat) by lia.
    destruct (lin64_near exp64 ln64 g N64 Fc Fd Fb ltac:(fold c'; lra) ltac:(fold d'; lra) ltac:(fold b'; lra) (S s) v64 ltac:(lia)) as (w64 & E64 & LW64 & W64);
      [intros i Hi; rewrite Snp in Hi; destruct (H i Hi) as (F & Q & B); split; [exact F|]; apply near_abs in Q; lra|exact FB|exact CB|].
    destruct (exact_row m (S s) v V L) as (w & EW & LW & HW). fold c d b in HW. fold c' d' b' in W64.
    assert (ROW : forall i, (i < f_np m - 1)%nat -> fin (nth64 w64 i) /\ Rabs (val (nth64 w64 i) - nth i w 0) <= E (S s) - M /\ Rabs (nth i w 0) <= M).
    { intros i Hi. specialize (W64 i ltac:(lia)). cbv zeta in W64. rewrite HW by lia. rewrite Snp, Stf in W64.
      set (ol := left_of (f_tf m) (f_np m - 1) (nth64 v64) (bd64 exp64 ln64 g (S s)) i) in *. set (or := right_of (f_tf m) (f_np m - 1) (nth64 v64) (bd64 exp64 ln64 g (S s)) i) in *.
      set (xl := left_of (f_tf m) (f_np m - 1) (fun j => nth j v 0) (exact_boundary m (S s)) i). set (xr := right_of (f_tf m) (f_np m - 1) (fun j => nth j v 0) (exact_boundary m (S s)) i).
      assert (KB : corr (E s - M) M (Some (bd64 exp64 ln64 g (S s))) (Some (exact_boundary m (S s)))) by (cbn; split; [exact FB|split; lra]).
      assert (KL : corr (E s - M) M ol xl). { unfold ol, xl, left_of. destruct i; [destruct (f_tf m); [exact I|exact KB]|]. apply H. lia. }
      assert (KR : corr (E s - M) M or xr). { unfold or, xr, right_of. destruct (Nat.eqb_spec (S i) (f_np m - 1)); [destruct (f_tf m); [exact KB|exact I]|]. apply H. lia. }
      destruct (corr_val (E s - M) M _ _ ltac:(lra) M0 KL) as [L1 L2]. destruct (corr_val (E s - M) M _ _ ltac:(lra) M0 KR) as [R1 R2]. destruct (H i Hi) as (_ & X1' & X2').
      destruct W64 as (F & NR & _). split; [exact F|].
      set (l' := oval ol) in *. set (r' := oval or) in *. set (l := oR xl) in *. set (r := oR xr) in *. set (x' := val (nth64 v64 i)) in *. set (x := nth i v 0) in *. set (e := E s - M) in *.
      destruct (term_close c' c l' l e M L1 L2) as [TL ML]. destruct (term_close d' d x' x e M X1' X2') as [TX MX]. destruct (term_close b' b r' r e M R1 R2) as [TR MR].
      assert (E1 : e + M = E s) by (unfold e; ring). assert (e0 : 0 <= e) by (unfold e; lra).
      clearbody l' r' l r x' x e c' d' b'. split.
      - assert (SW : Rabs c' + Rabs d' + Rabs b' <= 1 + delta) by lra.
        assert (MAG : Rabs (c' * l') + Rabs (d' * x') + Rabs (b' * r') <= (1 + delta) * (M + e)).
        { apply Rle_trans with ((Rabs c' + Rabs d' + Rabs b') * (M + e)); [lra|]. apply Rmult_le_compat_r; [lra|exact SW]. }
        assert (DIF : Rabs (c' * l' + d' * x' + b' * r' - (c * l + d * x + b * r)) <= (1 + delta) * e + delta * M).
        { replace (c' * l' + d' * x' + b' * r' - (c * l + d * x + b * r)) with ((c' * l' - c * l) + (d' * x' - d * x) + (b' * r' - b * r)) by ring.
          eapply Rle_trans; [apply Rabs_triang|]. eapply Rle_trans; [apply Rplus_le_compat_r, Rabs_triang|].
          apply Rle_trans with ((Rabs c' + Rabs d' + Rabs b') * e + (Rabs (c' - c) + Rabs (d' - d) + Rabs (b' - b)) * M); [lra|].
          apply Rplus_le_compat; apply Rmult_le_compat_r; assumption. }
        pose proof (tri (val (nth64 w64 i)) (c' * l' + d' * x' + b' * r') (c * l + d * x + b * r)) as T.
        assert (P3 : 1 <= (1 + u) ^ 3) by (apply pow_R1_Rle; lra). unfold amp in G1. rewrite <- E1 in G1. set (q := (1 + u) ^ 3) in *. clearbody q.
        assert (K1 : (q - 1) * (Rabs (c' * l') + Rabs (d' * x') + Rabs (b' * r')) <= (q - 1) * ((1 + delta) * (M + e))) by (apply Rmult_le_compat_l; lra). nra.
      - eapply Rle_trans; [apply Rabs_triang|]. eapply Rle_trans; [apply Rplus_le_compat_r, Rabs_triang|]. rewrite !Rabs_mult, (Rabs_pos_eq c), (Rabs_pos_eq d), (Rabs_pos_eq b) by assumption.
        apply Rle_trans with ((c + d + b) * M); [|rewrite SUM; lra]. pose proof (Rmult_le_compat_l c _ _ Cc L2). pose proof (Rmult_le_compat_l d _ _ Cd X2'). pose proof (Rmult_le_compat_l b _ _ Cb R2). lra. }
    rewrite step64_lin, E64, explicit_step_lin. unfold exercising. rewrite EW. cbn [bind]. do 2 eexists. split; [reflexivity|]. split; [reflexivity|].
    assert (EX : early64 g = early_exercise m) by (unfold early64, early_exercise; rewrite Sex; reflexivity). rewrite EX.
    destruct (early_exercise m) eqn:EM.
    - split; [rewrite american64_length; lia|]. split; [apply exercise_length; lia|]. intros i Hi. rewrite american64_nth by lia. rewrite exercise_nth by lia. rewrite EM.
      destruct (ROW i Hi) as (F & Q & B). destruct (EXE eq_refl (S s) (S i) ltac:(lia) ltac:(lia)) as (FA & QA & BA). unfold exact_exercise in QA, BA. change (f_T m / INR (f_nt m)) with (dt m) in QA, BA.
      destruct (fmax_fin _ _ F FA) as [FM ->]. split; [exact FM|]. split; [apply max_close; [exact Q|lra]|apply max_bound; assumption].
    - unfold maybe_exercise. rewrite EM. split; [lia|]. split; [lia|]. exact ROW.
  Qed.
  Lemma loop_close k : (k <= f_nt m)%nat -> exists w64 w, values64 exp64 ln64 g k = Ret w64 /\ fold_left (fun acc t => let! v := acc in explicit_step m t v) (seq 1 k) (Ret (initial_condition m)) = Ret w /\ close k w64 w.
  Proof.
    intros K. apply (fold_rel2 (explicit_step64 exp64 ln64 g) (explicit_step m) close k O).
    - destruct acc_signs as (D0 & E0 & M0). destruct (err_S delta M eps O D0 M0 E0) as (_ & _ & G3). destruct ACC as [(_ & Snp & _) _ _ PAY _ _ _].
      split; [rewrite initial64_length; lia|]. split; [apply initial_length|]. intros i Hi. rewrite initial64_nth by lia. rewrite initial_nth by lia. destruct (PAY (S i) ltac:(lia)) as (F & Q & B). split; [exact F|]. split; [fold (E 0) in G3; lra|exact B].
    - intros s x x' Hs. apply step_close. lia.
  Qed.
End Error.

Lemma unwrap64 w k : (k < length w)%nat -> unwrap (nth_error w k) = Ret (nth64 w k).
Proof. intros H. unfold nth64. rewrite (nth_error_nth' w nan H). reflexivity. Qed.
Lemma bpow_1001 : bpow radix2 1001 = 2 * cap. Proof. unfold cap. change 1001%Z with (1000 + 1)%Z. apply dbl_bpow. Qed.
Lemma mean_close a b x y E M : fin a -> fin b -> Rabs (val a - x) <= E - M -> Rabs x <= M -> Rabs (val b - y) <= E - M -> Rabs y <= M -> E <= cap ->
  fin (fdiv (fadd a b) two) /\ Rabs (val (fdiv (fadd a b) two) - (x + y) / 2) <= (1 + u) ^ 2 * E + eta - M.
Proof.
  intros A B HA BX HB BY C. pose proof u_pos as U0. pose proof u_tiny as U1. pose proof eta_pos as E0. pose proof (near_abs _ _ _ HA) as NA. pose proof (near_abs _ _ _ HB) as NB.
  pose proof (Rabs_pos (val a)) as PA. assert (S0 : Rabs (val a + val b) <= 2 * E) by (pose proof (Rabs_triang (val a) (val b)); lra).
  destruct (rnd_cap 1001 (val a + val b) ltac:(lia) ltac:(rewrite bpow_1001; lra)) as [C1 C2]. destruct (fadd_R a b A B C2) as [FS VS]. destruct two_R as [_ T2].
  assert (S1 : Rabs (val (fadd a b)) <= (1 + u) * (2 * E)). { rewrite VS. pose proof (rnd_sum_err (val a) (val b) (val_fmt a) (val_fmt b)) as Q. apply near_abs in Q. nra. }
  assert (H2 : Rabs (val (fadd a b) / 2) <= (1 + u) * E). { unfold Rdiv. rewrite Rabs_mult, (Rabs_pos_eq (/ 2)) by lra. lra. }
  destruct (rnd_cap 1001 (val (fadd a b) / 2) ltac:(lia)) as [_ C4]. { rewrite bpow_1001. pose proof cap_big. nra. }
  destruct (fdiv_R (fadd a b) two FS ltac:(rewrite T2; lra) ltac:(rewrite T2; exact C4)) as [FD VD]. split; [exact FD|]. rewrite VD, T2.
  pose proof (rnd_abs_err (val (fadd a b) / 2)) as Q1. pose proof (rnd_sum_err (val a) (val b) (val_fmt a) (val_fmt b)) as Q2. rewrite <- VS in Q2.
  set (s := val (fadd a b)) in *. set (q := rnd (s / 2)) in *.
  replace (q - (x + y) / 2) with ((q - s / 2) + ((s - (val a + val b)) / 2 + ((val a - x) / 2 + (val b - y) / 2))) by field.
  eapply Rle_trans; [apply Rabs_triang|]. eapply Rle_trans; [apply Rplus_le_compat_l, Rabs_triang|]. eapply Rle_trans; [apply Rplus_le_compat_l, Rplus_le_compat_l, Rabs_triang|].
  assert (HALF : forall z, Rabs (z / 2) = Rabs z / 2) by (intros; unfold Rdiv; rewrite Rabs_mult, (Rabs_pos_eq (/ 2)); lra). rewrite !(HALF (_ - _)).
  replace (q - s / 2) with (q - s / 2) by ring. clearbody q s. rewrite HALF in *. assert (u * (Rabs s / 2) <= u * ((1 + u) * E)) by (apply Rmult_le_compat_l; lra). assert (u * Rabs (val a + val b) <= u * (2 * E)) by (apply Rmult_le_compat_l; lra). nra.
Qed.

(** The computed price is finite and within rounding of the exact price of [FdModel]: the
    errors of the ingredients are not amplified beyond a factor that is close to 1. *)
Theorem explicit64_error : forall exp64 ln64 g m delta eps gamma M, fd_valid m -> stable Explicit m -> accurate exp64 ln64 g m delta eps gamma M ->
  delta <= 1 -> gamma <= 1 -> ((1 + delta) * (1 + u) ^ 3) ^ f_nt m * (M + eps + 6 * INR (f_nt m) * eta) <= bpow radix2 1000 ->
  exists p P, explicit64 exp64 ln64 g = Ret p /\ explicit m = Ret P /\ fin p /\
    Rabs (val p - P) <= (1 + gamma) * (1 + u) ^ 3 * (((1 + delta) * (1 + u) ^ 3) ^ f_nt m * (M + eps + 6 * INR (f_nt m) * eta) + 2 * eta) - M.
Proof.
  intros exp64 ln64 g m delta eps gamma M V ST ACC D1 G1 CAP. fold cap in CAP. fold (amp delta) in *. fold (err delta M eps (f_nt m)) in *.
  destruct (loop_close exp64 ln64 g m delta eps gamma M V ST ACC D1 CAP (f_nt m) (le_n _)) as (w64 & w & E64 & EW & L64 & L & H).
  destruct (acc_signs exp64 ln64 g m delta eps gamma M V ACC) as (D0 & E0 & M0). destruct (err_S delta M eps (f_nt m) D0 M0 E0) as (_ & _ & EM). set (E := err delta M eps (f_nt m)) in *.
  destruct ACC as [(Snt & Snp & _) _ _ _ _ _ (FD & ED)]. pose proof u_pos as U0. pose proof u_tiny as U1. pose proof eta_pos as Eta0.
  assert (DP : 0 < exp (- f_r m * f_T m) <= 1). { split; [apply exp_pos|]. rewrite <- exp_0. apply exp_le. destruct V as (_ & _ & r & _ & T & _). nra. }
  assert (GP : 0 <= gamma) by (pose proof (Rabs_pos (val (discount64 exp64 g) - exp (- f_r m * f_T m))); lra).
  destruct (mids m V) as [M1 M2].
  assert (RP : exists r, return_price64 g w64 = Ret r /\ fin r /\ Rabs (val r - (nth (mid1 m) w 0 + nth (mid2 m) w 0) / 2) <= (1 + u) ^ 2 * E + eta - M).
  { destruct (H _ M1) as (F1 & Q1 & B1). destruct (H _ M2) as (F2 & Q2 & B2). unfold return_price64. rewrite Snp. unfold mid2 in *. assert (N : (3 <= f_np m)%nat) by apply V. destruct (f_np m mod 2 =? 0)%nat.
    - fold (mid1 m). rewrite unwrap64 by lia. exists (nth64 w64 (mid1 m)). split; [reflexivity|]. split; [exact F1|]. replace ((nth (mid1 m) w 0 + nth (mid1 m) w 0) / 2) with (nth (mid1 m) w 0) by field. nra.
    - destruct (Nat.ltb_spec (f_np m) 3); [lia|]. fold (mid1 m). rewrite !unwrap64 by lia. cbn [bind]. eexists. split; [reflexivity|]. apply mean_close; assumption. }
  destruct RP as (r & ER & FR & QR). set (x := (nth (mid1 m) w 0 + nth (mid2 m) w 0) / 2) in *.
  assert (BX : Rabs x <= M). { destruct (H _ M1) as (_ & _ & B1). destruct (H _ M2) as (_ & _ & B2). unfold x, Rdiv. rewrite Rabs_mult, (Rabs_pos_eq (/ 2)) by lra. pose proof (Rabs_triang (nth (mid1 m) w 0) (nth (mid2 m) w 0)). lra. }
  assert (EP : explicit m = Ret (exp (- f_r m * f_T m) * x)). { unfold explicit. unfold time_loop. rewrite EW. apply finish_spec; assumption. }
  set (D := exp (- f_r m * f_T m)) in *. set (D' := val (discount64 exp64 g)) in *.
  destruct (term_close D' D (val r) x _ M QR BX) as [TC TB]. assert (DD : Rabs D' <= 1 + gamma) by (pose proof (near_abs _ _ _ ED) as Q; rewrite (Rabs_pos_eq D) in Q by lra; lra).
  pose proof cap_big as CB. set (e := (1 + u) ^ 2 * E + eta - M) in *. assert (EE : M + e = (1 + u) ^ 2 * E + eta) by (unfold e; ring). assert (e0 : 0 <= e) by (pose proof (Rabs_pos (val r - x)); lra).
  assert (BIG : Rabs (D' * val r) <= (1 + gamma) * ((1 + u) ^ 2 * E + eta)). { rewrite <- EE. apply Rle_trans with (1 := TB). apply Rmult_le_compat_r; lra. }
  destruct (rnd_cap 1002 (D' * val r) ltac:(lia)) as [_ C2]. { rewrite bpow_4cap. apply Rle_trans with (1 := BIG). pose proof eta_tiny. assert (K2 : (1 + u) ^ 2 * E + eta <= 2 * cap). { assert ((1 + u) ^ 2 <= 3 / 2) by nra. assert ((1 + u) ^ 2 * E <= 3 / 2 * cap) by (apply Rmult_le_compat; try lra; apply pow_le; lra). lra. }
    apply Rle_trans with (2 * (2 * cap)); [|lra]. apply Rmult_le_compat; lra. }
  destruct (fmul_R _ _ FD FR C2) as [FP VP]. unfold explicit64. rewrite Snt, E64. cbn [bind]. rewrite ER. cbn [rmap]. exists (fmul (discount64 exp64 g) r), (D * x). split; [reflexivity|]. split; [exact EP|]. split; [exact FP|].
  rewrite VP. fold D'. pose proof (rnd_abs_err (D' * val r)) as Q. pose proof (tri (rnd (D' * val r)) (D' * val r) (D * x)) as T. set (z := rnd (D' * val r)) in *. clearbody z.
  assert (T1 : Rabs D' * e + Rabs (D' - D) * M <= (1 + gamma) * e + gamma * M) by (apply Rplus_le_compat; apply Rmult_le_compat_r; assumption).
  assert (T2 : u * Rabs (D' * val r) <= u * ((1 + gamma) * ((1 + u) ^ 2 * E + eta))) by (apply Rmult_le_compat_l; lra).
  set (k := (1 + u) ^ 2 * E + eta) in *. assert (KK : e = k - M) by (unfold e, k; ring). assert (T3 : Rabs D' * e + Rabs (D' - D) * M <= (1 + gamma) * (k - M) + gamma * M) by (rewrite <- KK; exact T1).
  apply Rle_trans with ((1 + gamma) * (1 + u) * k + eta - M); [lra|]. unfold k. change ((1 + u) ^ 3) with ((1 + u) * (1 + u) ^ 2).
  assert (P2 : 1 <= (1 + u) ^ 2) by (apply pow_R1_Rle; lra). set (q := (1 + u) ^ 2) in *. clearbody q. replace ((1 + gamma) * ((1 + u) * q)) with ((1 + gamma) * (1 + u) * q) by ring. assert (W : 1 <= (1 + gamma) * (1 + u)) by nra. set (a := (1 + gamma) * (1 + u)) in *. clearbody a.
  assert (AQ : a <= a * q) by nra. assert (a * eta <= a * q * eta) by (apply Rmult_le_compat_r; lra). assert (1 * eta <= a * q * eta) by (apply Rmult_le_compat_r; lra). lra.
Qed.
Print Assumptions explicit64_error.

(** The same bound, linear in the errors. *)
Lemma pow_linear t n : 0 <= t -> INR n * t <= / 11 -> (1 + t) ^ n <= 1 + 11 / 10 * (INR n * t).
Proof.
  intros T. induction n as [|n IH]; intros B; [cbn; lra|]. rewrite S_INR in *. pose proof (pos_INR n) as N0. assert (I : INR n * t <= / 11) by lra. specialize (IH I). cbn [pow]. assert (0 <= (1 + t) ^ n) by (apply pow_le; lra). nra.
Qed.
Corollary explicit64_linear : forall exp64 ln64 g m delta eps gamma M, fd_valid m -> stable Explicit m -> accurate exp64 ln64 g m delta eps gamma M ->
  INR (f_nt m) * (delta + 4 * u) <= / 11 -> gamma <= / 10 -> M + eps + 6 * INR (f_nt m) * eta <= bpow radix2 999 ->
  exists p P, explicit64 exp64 ln64 g = Ret p /\ explicit m = Ret P /\ fin p /\
    Rabs (val p - P) <= 2 * (gamma + 4 * u + INR (f_nt m) * (delta + 4 * u)) * M + 2 * eps + (12 * INR (f_nt m) + 4) * eta.
Proof.
  intros exp64 ln64 g m delta eps gamma M V ST ACC KAP G CAP. destruct (acc_signs exp64 ln64 g m delta eps gamma M V ACC) as (D0 & E0 & M0).
  pose proof u_pos as U0. pose proof u_tiny as U1. pose proof eta_pos as Eta0. assert (N1 : 1 <= INR (f_nt m)) by (change 1 with (INR 1); apply le_INR; apply V).
  assert (D1 : delta <= / 11) by nra. assert (AMP : (1 + delta) * (1 + u) ^ 3 <= 1 + (delta + 4 * u)). { assert ((1 + u) ^ 3 <= 1 + 3 * u + / 10 * u) by nra. nra. }
  assert (POW : ((1 + delta) * (1 + u) ^ 3) ^ f_nt m <= 1 + 11 / 10 * (INR (f_nt m) * (delta + 4 * u))).
  { eapply Rle_trans; [|apply pow_linear; lra]. apply pow_incr. split; [|exact AMP]. apply Rmult_le_pos; [lra|apply pow_le; lra]. }
  assert (P0 : 1 <= ((1 + delta) * (1 + u) ^ 3) ^ f_nt m) by (apply pow_R1_Rle; assert (1 <= (1 + u) ^ 3) by (apply pow_R1_Rle; lra); nra).
  set (A := ((1 + delta) * (1 + u) ^ 3) ^ f_nt m) in *. set (kap := INR (f_nt m) * (delta + 4 * u)) in *. set (n := INR (f_nt m)) in *.
  assert (X0 : 0 <= M + eps + 6 * n * eta) by nra. assert (K0 : 0 <= kap) by (unfold kap; nra).
  destruct (explicit64_error exp64 ln64 g m delta eps gamma M V ST ACC ltac:(lra) ltac:(lra)) as (p & P & E1 & E2 & F & B).
  { fold A n. replace (bpow radix2 1000) with (2 * bpow radix2 999) by (change 1000%Z with (999 + 1)%Z; rewrite dbl_bpow; ring). apply Rmult_le_compat; lra. }
  fold A n in B. exists p, P. split; [exact E1|]. split; [exact E2|]. split; [exact F|]. apply Rle_trans with (1 := B). clear B E1 E2 F.
  assert (GP : 0 <= gamma). { destruct ACC as [_ _ _ _ _ _ (_ & ED)]. pose proof (Rabs_pos (val (discount64 exp64 g) - exp (- f_r m * f_T m))). lra. }
  assert (Q3 : (1 + u) ^ 3 <= 1 + 4 * u) by nra. assert (Q0 : 1 <= (1 + u) ^ 3) by (apply pow_R1_Rle; lra).
  set (lam := 2 * (gamma + 4 * u + kap)). set (q := (1 + u) ^ 3) in *. clearbody q A kap n. assert (L0 : 0 <= lam) by (unfold lam; lra).
  assert (F1 : (1 + gamma) * q <= 1 + 101 / 100 * (gamma + 4 * u)) by nra. assert (L1 : (1 + gamma) * q * A <= 1 + lam). { apply Rle_trans with ((1 + 101 / 100 * (gamma + 4 * u)) * (1 + 11 / 10 * kap)); [apply Rmult_le_compat; nra|]. unfold lam. nra. }
  assert (L2 : lam <= 1) by (unfold lam; lra). assert (L3 : (1 + gamma) * q <= 2) by lra.
  replace ((1 + gamma) * q * (A * (M + eps + 6 * n * eta) + 2 * eta)) with ((1 + gamma) * q * A * (M + eps + 6 * n * eta) + (1 + gamma) * q * (2 * eta)) by ring.
  assert (T1 : (1 + gamma) * q * A * (M + eps + 6 * n * eta) <= (1 + lam) * (M + eps + 6 * n * eta)) by (apply Rmult_le_compat_r; assumption).
  assert (T2 : (1 + gamma) * q * (2 * eta) <= 2 * (2 * eta)) by (apply Rmult_le_compat_r; lra). assert (NE : 0 <= n * eta) by nra. nra.
Qed.
Print Assumptions explicit64_linear.

(** ** Expired options *)
Lemma mul_nan_l y : fmul nan y = nan. Proof. destruct y; reflexivity. Qed.
Lemma mul_nan_r x : fmul x nan = nan. Proof. destruct x; reflexivity. Qed.
Lemma add_nan_l y : fadd nan y = nan. Proof. destruct y; reflexivity. Qed.
Lemma add_nan_r x : fadd x nan = nan. Proof. destruct x; reflexivity. Qed.
Lemma sub_nan_l y : fsub nan y = nan. Proof. destruct y; reflexivity. Qed.
Lemma sub_nan_r x : fsub x nan = nan. Proof. destruct x; reflexivity. Qed.
Lemma div_nan_l y : fdiv nan y = nan. Proof. destruct y; reflexivity. Qed.
Lemma div_nan_r x : fdiv x nan = nan. Proof. destruct x; reflexivity. Qed.
Lemma sqrt_neg x : flt x zero = true -> fsqrt x = nan.
Proof. destruct x as [s| s | |s m e H]; try destruct s; cbn; intros Q; try discriminate; reflexivity. Qed.
Lemma mul_zero x y : fin x -> fin y -> val y = 0 -> fin (fmul x y) /\ val (fmul x y) = 0.
Proof.
  intros X Y E. assert (Z : Rabs (rnd (val x * val y)) < fmaxR) by (rewrite E, Rmult_0_r, rnd_0, Rabs_R0; apply bpow_gt_0). destruct (fmul_R x y X Y Z) as [F V]. split; [exact F|]. rewrite V, E, Rmult_0_r. apply rnd_0.
Qed.

(** When the expiry precedes the evaluation date the grid is NaN, whatever the parameters.  The
    price of a European option is then NaN; that of an American option is zero, however far
    in the money it is, because [f64::max] drops the NaN. *)
Theorem explicit64_expired : forall exp64 ln64 g, (3 <= h_np g)%nat -> (1 <= h_nt g)%nat -> flt (h_T g) zero = true -> exp64 nan = nan ->
  (early64 g = false -> explicit64 exp64 ln64 g = Ret nan) /\
  (early64 g = true -> fin (exp64 (fmul (h_r g) (tau64 g (h_nt g)))) -> fin (exp64 (fmul (fneg (h_r g)) (h_T g))) ->
    exists p, explicit64 exp64 ln64 g = Ret p /\ fin p /\ val p = 0).
Proof.
  intros exp64 ln64 g N NT T EN. pose proof (sqrt_neg _ T) as SQ.
  assert (HW : half_width g = nan) by (unfold half_width; rewrite SQ; apply mul_nan_r).
  assert (XM : x_min64 ln64 g = nan) by (unfold x_min64; rewrite HW; apply sub_nan_r).
  assert (DX : fdx ln64 g = nan) by (unfold fdx; rewrite XM, sub_nan_r; apply div_nan_l).
  assert (CX : cx64 ln64 g = nan) by (unfold cx64; rewrite DX, mul_nan_l; apply div_nan_r).
  assert (CY : cy64 ln64 g = nan) by (unfold cy64; rewrite DX, mul_nan_r; apply div_nan_r).
  assert (SU : sub64 ln64 g = nan) by (unfold sub64; rewrite CX; apply sub_nan_l). assert (DI : diag64 ln64 g = nan) by (unfold diag64; rewrite CX; change nan with (@B754_nan 53 1024); rewrite mul_nan_r; apply sub_nan_r). assert (SP : super64 ln64 g = nan) by (unfold super64; rewrite CX; apply add_nan_l).
  assert (PAY : forall i, payoff64 g (exp64 (node64 ln64 g i)) = zero). { intros i. unfold node64. rewrite XM, add_nan_l, EN. unfold payoff64, vanilla64, fpos. destruct (h_tf g); [rewrite sub_nan_l|rewrite sub_nan_r]; reflexivity. }
  assert (LIN : forall t v, length v = (h_np g - 1)%nat -> exists w, lin64 exp64 ln64 g t v = Ret w /\ length w = (h_np g - 1)%nat /\ forall i, (i < h_np g - 1)%nat -> nth64 w i = nan).
  { intros t v L. unfold lin64. rewrite SU, DI, SP. destruct (tri_mul64_spec nan nan nan v ltac:(lia)) as (v1 & -> & L1 & H1). cbn [bind].
    assert (R : forall i, row64 nan nan nan v i = nan) by (intros [|i]; unfold row64; rewrite !mul_nan_l; [reflexivity|]; destruct (_ =? _)%nat; reflexivity).
    unfold add_boundary64. rewrite SU, SP. destruct (h_tf g).
    - destruct (Nat.ltb_spec (h_np g) 2); [lia|]. destruct (add_at64_spec (h_np g - 2) (fmul nan (boundary64 exp64 ln64 g t)) v1 ltac:(lia)) as (w & -> & LW & W). exists w. split; [reflexivity|]. split; [lia|]. intros i Hi. rewrite W, H1, R by lia. destruct (_ =? _)%nat; [apply add_nan_l|reflexivity].
    - destruct (add_at64_spec 0 (fmul nan (boundary64 exp64 ln64 g t)) v1 ltac:(lia)) as (w & -> & LW & W). exists w. split; [reflexivity|]. split; [lia|]. intros i Hi. rewrite W, H1, R by lia. destruct (_ =? _)%nat; [apply add_nan_l|reflexivity]. }
  (* the values after the last step *)
  assert (LAST : exists w, values64 exp64 ln64 g (h_nt g) = Ret w /\ length w = (h_np g - 1)%nat /\ forall i, (i < h_np g - 1)%nat -> nth64 w i = if early64 g then exercise64 exp64 ln64 g (h_nt g) (S i) else nan).
  { destruct (fold_rel2 (explicit_step64 exp64 ln64 g) (explicit_step64 exp64 ln64 g) (fun t v v' => length v = (h_np g - 1)%nat /\ ((1 <= t)%nat -> forall i, (i < h_np g - 1)%nat -> nth64 v i = if early64 g then exercise64 exp64 ln64 g t (S i) else nan) /\ v' = v) (h_nt g) O (initial64 exp64 ln64 g) (initial64 exp64 ln64 g)) as (w & w' & E & _ & L & H & _).
    - split; [apply initial64_length|]. split; [lia|reflexivity].
    - intros s v v' _ (L & _ & ->). rewrite step64_lin. destruct (LIN (S s) v L) as (w & -> & LW & W). cbn [bind]. do 2 eexists. split; [reflexivity|]. split; [reflexivity|]. destruct (early64 g).
      + split; [apply american64_length|]. split; [|reflexivity]. intros _ i Hi. rewrite american64_nth by exact Hi. rewrite W by exact Hi. reflexivity.
      + split; [exact LW|]. split; [|reflexivity]. intros _. exact W.
    - exists w. split; [exact E|]. split; [exact L|]. apply H. exact NT. }
  destruct LAST as (w & EW & LW & W). unfold explicit64. rewrite EW. cbn [bind].
  assert (M1 : ((h_np g - 1) / 2 < h_np g - 1)%nat) by (apply Nat.div_lt; lia). assert (M2 : ((h_np g - 3) / 2 < h_np g - 1)%nat) by (assert ((h_np g - 3) / 2 <= h_np g - 3)%nat by (apply Nat.div_le_upper_bound; lia); lia).
  split.
  - intros EA. rewrite EA in W. cbv iota in W. unfold return_price64. destruct (_ mod 2 =? 0)%nat; [rewrite unwrap64, W by lia; unfold rmap; cbn [bind]; rewrite mul_nan_r; reflexivity|]. destruct (Nat.ltb_spec (h_np g) 3); [lia|]. rewrite !unwrap64, !W by lia. unfold rmap; cbn [bind]. rewrite add_nan_l, div_nan_l, mul_nan_r. reflexivity.
  - intros EA FE FD. rewrite EA in W. cbv iota in W. assert (Z : forall i, (i < h_np g - 1)%nat -> fin (nth64 w i) /\ val (nth64 w i) = 0).
    { intros i Hi. rewrite W by exact Hi. unfold exercise64. rewrite PAY. apply mul_zero; [exact FE|reflexivity|reflexivity]. }
    assert (RP : exists r, return_price64 g w = Ret r /\ fin r /\ val r = 0).
    { unfold return_price64. destruct (_ mod 2 =? 0)%nat; [rewrite unwrap64 by lia; eexists; split; [reflexivity|]; apply Z, M1|]. destruct (Nat.ltb_spec (h_np g) 3); [lia|]. rewrite !unwrap64 by lia. cbn [bind]. eexists. split; [reflexivity|].
      destruct (Z _ M1) as [F1 V1]. destruct (Z _ M2) as [F2 V2]. set (a := nth64 w ((h_np g - 1) / 2)) in *. set (b := nth64 w ((h_np g - 3) / 2)) in *.
      assert (B0 : Rabs (rnd 0) < fmaxR) by (rewrite rnd_0, Rabs_R0; apply bpow_gt_0).
      destruct (fadd_R a b F1 F2) as [FS VS]; [rewrite V1, V2, Rplus_0_r; exact B0|]. rewrite V1, V2, Rplus_0_r, rnd_0 in VS. destruct two_R as [_ T2].
      destruct (fdiv_R (fadd a b) two FS) as [FQ VQ]; [rewrite T2; lra|rewrite VS; unfold Rdiv; rewrite Rmult_0_l; exact B0|]. split; [exact FQ|]. rewrite VQ, VS. unfold Rdiv. rewrite Rmult_0_l. apply rnd_0. }
    destruct RP as (r & -> & FR & VR). cbn [rmap]. eexists. split; [reflexivity|]. apply mul_zero; assumption.
Qed.
Print Assumptions explicit64_expired.
(** an American put struck at 100 on a stock at 50, expired a year ago, costs nothing *)
Definition expired_put (ex : exercise_flag) : fd64 := Fd64 (lit 50 0) (lit 100 0) (lit 1 (-4)) (lit 1 (-2)) (lit (-1) 0) 4 5 Put ex.
Example explicit64_expired_case : let e := fun x : f64 => if is_nan x then nan else one in
  fd64_ok (expired_put (American date_min date_max)) = true /\
  (exists p, explicit64 e (fun x => x) (expired_put (American date_min date_max)) = Ret p /\ fin p /\ val p = 0) /\
  explicit64 e (fun x => x) (expired_put (European date_min)) = Ret nan.
Proof.
  cbv zeta. split; [vm_compute; reflexivity|]. split.
  - apply explicit64_expired; [cbn; lia|cbn; lia|vm_compute; reflexivity|reflexivity|reflexivity|vm_compute; reflexivity|vm_compute; reflexivity].
  - apply explicit64_expired; [cbn; lia|cbn; lia|vm_compute; reflexivity|reflexivity|reflexivity].
Qed.

(** ** The hypotheses are met *)
(** correctly rounded library functions exist *)
Definition nearest64 (x : R) : f64 := lit (ZnearestE (scaled_mantissa radix2 F x)) (cexp radix2 F x).
Lemma nearest64_R x : Rabs x <= 1000 -> fin (nearest64 x) /\ val (nearest64 x) = rnd x.
Proof.
  intros B. destruct (rnd_cap 10 x ltac:(lia)) as [_ C]; [apply Rle_trans with (1 := B); change (bpow radix2 10) with 1024; lra|].
  assert (E : rnd (IZR (ZnearestE (scaled_mantissa radix2 F x)) * bpow radix2 (cexp radix2 F x)) = rnd x). { apply rnd_id. exact (rnd_fmt x). }
  destruct (lit_R (ZnearestE (scaled_mantissa radix2 F x)) (cexp radix2 F x)) as [A V]; [rewrite E; exact C|]. split; [exact A|]. unfold nearest64. etransitivity; [exact V|exact E].
Qed.
Definition case64 : fd64 := Fd64 one one (lit 1 (-4)) (lit 1 (-2)) one 1 4 Put (European date_min).
Definition caseR : fd := Fd 1 1 (/ 16) (/ 4) 1 1 4 Put (European date_min).
Definition case_exp (x : f64) : f64 := nearest64 (exp (val x)).
Definition case_ln (x : f64) : f64 := zero.
Lemma is_lit x a b r : (is_finite x && feq x (lit a b))%bool = true -> (-1074 <= b <= 0)%Z -> (Z.abs a <= 2 ^ 53)%Z -> IZR a * bpow radix2 b = r -> fin x /\ val x = r.
Proof.
  intros H Hb Ha <-. apply andb_prop in H. destruct H as [H1 H2]. split; [exact H1|]. destruct (entry_R a b Hb Ha) as [E1 E2]. change (entry (a, b)) with (lit a b) in *. apply (feq_R x (lit a b) H1 E1) in H2. rewrite H2. exact E2.
Qed.
Ltac by_lit a b := apply (is_lit _ a b); [vm_compute; reflexivity|lia|cbn; lia|].
Lemma case_node i : (1 <= i < 4)%nat -> fin (node64 case_ln case64 i) /\ val (node64 case_ln case64 i) = node caseR i /\ node caseR i <= 5 / 8.
Proof.
  intros H. assert (N : node caseR i = - (10 / 8) + INR i * (5 / 8)). { unfold node, dx, x_max, x_min, caseR. cbn [f_s f_v f_T f_np]. rewrite ln_1, sqrt_1. change (INR 4) with (1 + 1 + 1 + 1). field. }
  assert (i = 1 \/ i = 2 \/ i = 3)%nat as [-> | [-> | ->]] by lia; rewrite N; cbn [INR].
  - destruct (is_lit (node64 case_ln case64 1) (-5) (-3) (- (5 / 8))) as [A B]; [vm_compute; reflexivity|lia|cbn; lia|change (bpow radix2 (-3)) with (/ 8); lra|]. split; [exact A|]. split; [rewrite B|]; lra.
  - destruct (is_lit (node64 case_ln case64 2) 0 0 0) as [A B]; [vm_compute; reflexivity|lia|cbn; lia|change (bpow radix2 0) with 1; lra|]. split; [exact A|]. split; [rewrite B|]; lra.
  - destruct (is_lit (node64 case_ln case64 3) 5 (-3) (5 / 8)) as [A B]; [vm_compute; reflexivity|lia|cbn; lia|change (bpow radix2 (-3)) with (/ 8); lra|]. split; [exact A|]. split; [rewrite B|]; lra.
Qed.
Lemma case_exp_R x r : val x = r -> r <= 5 / 8 -> fin (case_exp x) /\ val (case_exp x) = rnd (exp r) /\ Rabs (rnd (exp r) - exp r) <= 3 * u + eta /\ (r <= 0 -> Rabs (rnd (exp r) - exp r) <= u + eta /\ 0 <= rnd (exp r) <= 1).
Proof.
  intros <- B. assert (P : 0 < exp (val x) <= 3). { split; [apply exp_pos|]. apply Rle_trans with (exp 1); [apply exp_le; lra|apply exp_le_3]. } unfold case_exp.
  destruct (nearest64_R (exp (val x)) ltac:(rewrite Rabs_pos_eq; lra)) as [F V]. split; [exact F|]. split; [exact V|]. pose proof (rnd_abs_err (exp (val x))) as Q. rewrite (Rabs_pos_eq (exp _)) in Q by lra. pose proof u_pos. split; [nra|].
  intros N. assert (exp (val x) <= 1) by (rewrite <- exp_0; apply exp_le; exact N). split; [nra|]. split; [rewrite <- rnd_0; apply rnd_le; lra|]. rewrite <- (rnd_id 1) by (apply (int_fmt 1); cbn; lia). apply rnd_le. lra.
Qed.
Lemma case_weight x a : (is_finite x && fle (lit a (-50)) x && fle x (lit (a + 1) (-50)))%bool = true -> (Z.abs a <= 2 ^ 52)%Z -> IZR a * / 1125899906842624 <= val x <= (IZR a + 1) * / 1125899906842624 /\ fin x.
Proof.
  intros H A. apply andb_prop in H. destruct H as [H H3]. apply andb_prop in H. destruct H as [H1 H2].
  destruct (entry_R a (-50) ltac:(lia) ltac:(lia)) as [E1 E2]. destruct (entry_R (a + 1) (-50) ltac:(lia) ltac:(lia)) as [E3 E4].
  apply (fle_R (lit a (-50)) x E1 H1) in H2. apply (fle_R x (lit (a + 1) (-50)) H1 E3) in H3. change (lit a (-50)) with (entry (a, -50)%Z) in H2. change (lit (a + 1) (-50)) with (entry (a + 1, -50)%Z) in H3. rewrite E2 in H2. rewrite E4, plus_IZR in H3.
  change (bpow radix2 (-50)) with (/ 1125899906842624) in *. split; [lra|exact H1].
Qed.
Lemma case_coefficients : cx caseR = 8 / 100 /\ cy caseR = 25 / 1000.
Proof.
  unfold cx, cy, dt, dx, x_max, x_min, caseR. cbn [f_s f_v f_T f_np f_r f_nt]. rewrite ln_1, sqrt_1. change (INR 4) with (1 + 1 + 1 + 1). change (INR 1) with 1. split; field.
Qed.
Example explicit64_case : fd64_ok case64 = true /\ fd_valid caseR /\ stable Explicit caseR /\ accurate case_exp case_ln case64 caseR (/ 1000000) (6 * u) (2 * u) 1 /\
  INR (f_nt caseR) * (/ 1000000 + 4 * u) <= / 11 /\ 1 + 6 * u + 6 * INR (f_nt caseR) * eta <= bpow radix2 999.
Proof.
  pose proof u_pos as U0. pose proof u_tiny as U1. pose proof eta_pos as E0. pose proof eta_tiny as E1. assert (EU : eta <= u / 1000) by apply eta_u.
  assert (V : fd_valid caseR) by (unfold fd_valid, caseR; cbn [f_s f_k f_r f_v f_T f_nt f_np]; repeat split; lra || lia).
  split; [vm_compute; reflexivity|]. split; [exact V|]. split.
  { unfold stable, caseR. cbn [f_r f_v f_T f_np f_nt]. rewrite sqrt_1, Rabs_pos_eq by lra. change (INR 4) with (1 + 1 + 1 + 1). change (INR 1) with 1. split; lra. }
  split; [|change (INR (f_nt caseR)) with 1; split; [lra|]; pose proof (bpow_le radix2 2 999 ltac:(lia)) as B; change (bpow radix2 2) with 4 in B; lra].
  destruct case_coefficients as [CX CY].
  assert (R1 : fin (fmul (fneg (h_r case64)) (tau64 case64 1)) /\ val (fmul (fneg (h_r case64)) (tau64 case64 1)) = - / 16) by (by_lit (-1)%Z (-4)%Z; change (bpow radix2 (-4)) with (/ 16); lra).
  assert (R2 : fin (fmul (fneg (h_r case64)) (h_T case64)) /\ val (fmul (fneg (h_r case64)) (h_T case64)) = - / 16) by (by_lit (-1)%Z (-4)%Z; change (bpow radix2 (-4)) with (/ 16); lra).
  assert (R3 : fin (x_min64 case_ln case64) /\ val (x_min64 case_ln case64) = - (10 / 8)) by (by_lit (-5)%Z (-2)%Z; change (bpow radix2 (-2)) with (/ 4); lra).
  constructor.
  - repeat split.
  - repeat split; vm_compute; reflexivity.
  - rewrite CX, CY.
    assert (W1 : (is_finite (sub64 case_ln case64) && fle (lit 61924494876344 (-50)) (sub64 case_ln case64) && fle (sub64 case_ln case64) (lit (61924494876344 + 1) (-50)))%bool = true) by (vm_compute; reflexivity).
    assert (W2 : (is_finite (diag64 case_ln case64) && fle (lit 945755921747804 (-50)) (diag64 case_ln case64) && fle (diag64 case_ln case64) (lit (945755921747804 + 1) (-50)))%bool = true) by (vm_compute; reflexivity).
    assert (W3 : (is_finite (super64 case_ln case64) && fle (lit 118219490218475 (-50)) (super64 case_ln case64) && fle (super64 case_ln case64) (lit (118219490218475 + 1) (-50)))%bool = true) by (vm_compute; reflexivity).
    apply case_weight in W1; [|lia]. apply case_weight in W2; [|lia]. apply case_weight in W3; [|lia]. destruct W1 as [W1 _], W2 as [W2 _], W3 as [W3 _].
    set (x := val (sub64 case_ln case64)) in *. set (y := val (diag64 case_ln case64)) in *. set (z := val (super64 case_ln case64)) in *. clearbody x y z.
    assert (Rabs (x - (8 / 100 - 25 / 1000)) <= / 10000000) by (apply Rabs_le; lra). assert (Rabs (y - (1 - 2 * (8 / 100))) <= / 10000000) by (apply Rabs_le; lra). assert (Rabs (z - (8 / 100 + 25 / 1000)) <= / 10000000) by (apply Rabs_le; lra). lra.
  - intros i Hi. cbn [f_np caseR] in Hi. destruct (case_node i Hi) as (NF & NV & NB). destruct (case_exp_R _ _ NV NB) as (FE & VE & QE & _). set (a := exp (node caseR i)) in *. assert (A0 : 0 < a <= 3). { split; [apply exp_pos|]. unfold a. apply Rle_trans with (exp 1); [apply exp_le; lra|apply exp_le_3]. }
    unfold payoff64. change (vanilla64 (h_tf case64) (h_k case64) (case_exp (node64 case_ln case64 i))) with (fpos (fsub one (case_exp (node64 case_ln case64 i)))). change (FdModel.payoff caseR a) with (Rmax (1 - a) 0).
    set (s := case_exp (node64 case_ln case64 i)) in *. destruct one_R as [F1 V1].
    assert (FS : fin (fsub one s)). { apply (fsub_R one s F1 FE). rewrite V1, VE. apply cap_fin. apply Rabs_le_inv in QE. apply Rabs_le. lra. }
    destruct (diff_pos one s FS) as [FP VP]. split; [exact FP|]. rewrite VP, V1, VE. set (a' := rnd a) in *. clearbody a a'.
    assert (PM : 0 <= Rmax (1 - a) 0 <= 1) by (unfold Rmax; destruct (Rle_dec (1 - a) 0); lra). split; [|rewrite Rabs_pos_eq; lra].
    assert (D1 : Rabs (Rmax (1 - a') 0 - Rmax (1 - a) 0) <= 3 * u + eta). { apply max_close; [|rewrite Rminus_0_r, Rabs_R0; lra]. replace (1 - a' - (1 - a)) with (- (a' - a)) by ring. rewrite Rabs_Ropp. exact QE. }
    pose proof (rnd_abs_err (Rmax (1 - a') 0)) as Q2. pose proof (tri (rnd (Rmax (1 - a') 0)) (Rmax (1 - a') 0) (Rmax (1 - a) 0)) as T. pose proof (near_abs _ _ _ D1) as B1. rewrite (Rabs_pos_eq (Rmax (1 - a) 0)) in B1 by lra. nra.
  - intros t Ht. cbn [f_nt caseR] in Ht. assert (t = 1%nat) as -> by lia. unfold boundary64. cbn [h_tf case64]. fold case64.
    destruct R1 as [FR VR]. destruct R3 as [FX VX]. destruct (case_exp_R _ _ VR ltac:(lra)) as (FE & VE & _ & BE). destruct (BE ltac:(lra)) as [QE PE]. destruct (case_exp_R _ _ VX ltac:(lra)) as (FY & VY & _ & BY). destruct (BY ltac:(lra)) as [QY PY].
    change (h_k case64) with one. set (e := case_exp (fmul (fneg (h_r case64)) (tau64 case64 1))) in *. set (y := case_exp (x_min64 case_ln case64)) in *. destruct one_R as [F1 V1].
    assert (P1 : 0 < exp (- / 16) <= 1) by (split; [apply exp_pos|rewrite <- exp_0; apply exp_le; lra]).
    assert (EM : fin (fmul one e) /\ val (fmul one e) = rnd (exp (- / 16))). { destruct (fmul_R one e F1 FE) as [A B]; [rewrite V1, VE, Rmult_1_l, (rnd_id _ (rnd_fmt _)); apply cap_fin; rewrite Rabs_pos_eq; lra|]. split; [exact A|]. rewrite B, V1, VE, Rmult_1_l. apply rnd_id, rnd_fmt. }
    destruct EM as [FM VM]. assert (XB : exact_boundary caseR 1 = exp (- / 16) - exp (- (10 / 8))). { unfold exact_boundary, x_min, caseR. cbn [f_s f_k f_r f_v f_T f_nt f_np f_tf]. rewrite ln_1, sqrt_1, Rmult_1_l. change (INR 1) with 1. f_equal; f_equal; field. }
    rewrite XB. assert (S0 : Rabs (val (fmul one e) - val y) <= 1) by (rewrite VM, VY; apply Rabs_le; lra). destruct (fsub_R (fmul one e) y FM FY) as [FS VS]; [apply cap_fin; lra|]. split; [exact FS|]. rewrite VS.
    pose proof (rnd_abs_err (val (fmul one e) - val y)) as Q. assert (P2 : 0 < exp (- (10 / 8)) <= 1) by (split; [apply exp_pos|rewrite <- exp_0; apply exp_le; lra]).
    split; [|apply Rabs_le; lra]. rewrite VM, VY in *. set (a := exp (- / 16)) in *. set (b := exp (- (10 / 8))) in *. set (a' := rnd a) in *. set (b' := rnd b) in *. clearbody a b a' b'. set (z := rnd (a' - b')) in *. clearbody z.
    replace (z - (a - b)) with ((z - (a' - b')) + ((a' - a) - (b' - b))) by ring. eapply Rle_trans; [apply Rabs_triang|]. pose proof (Rabs_triang (a' - a) (- (b' - b))) as T. rewrite Rabs_Ropp in T. replace (a' - a + - (b' - b)) with (a' - a - (b' - b)) in T by ring. assert (u * Rabs (a' - b') <= u * 1) by (apply Rmult_le_compat_l; lra). lra.
  - discriminate.
  - unfold discount64. destruct R2 as [FR VR]. destruct (case_exp_R _ _ VR ltac:(lra)) as (FE & VE & _ & BE). destruct (BE ltac:(lra)) as [QE _]. split; [exact FE|]. rewrite VE. cbn [f_r f_T caseR]. replace (- / 16 * 1) with (- / 16) by ring. lra.
Qed.
Example explicit64_bounded_case : let e := fun _ : f64 => half64 in
  0 <= val (sub64 case_ln case64) /\ 0 <= val (diag64 case_ln case64) /\ 0 <= val (super64 case_ln case64) /\
  (forall i, (1 <= i < h_np case64)%nat -> fin (payoff64 case64 (e (node64 case_ln case64 i))) /\ Rabs (val (payoff64 case64 (e (node64 case_ln case64 i)))) <= 1) /\
  (forall t, (1 <= t <= h_nt case64)%nat -> fin (boundary64 e case_ln case64 t) /\ Rabs (val (boundary64 e case_ln case64 t)) <= 1) /\ early64 case64 = false.
Proof.
  cbv zeta. assert (G : forall x, (is_finite x && fle zero x)%bool = true -> 0 <= val x). { intros x H. apply andb_prop in H. destruct H as [H1 H2]. apply (fle_R zero x eq_refl H1) in H2. exact H2. }
  split; [apply G; vm_compute; reflexivity|]. split; [apply G; vm_compute; reflexivity|]. split; [apply G; vm_compute; reflexivity|]. split; [|split].
  - intros i _. destruct (is_lit (payoff64 case64 half64) 1 (-1) (/ 2)) as [A B]; [vm_compute; reflexivity|lia|cbn; lia|change (bpow radix2 (-1)) with (/ 2); lra|]. split; [exact A|]. rewrite B, Rabs_pos_eq; lra.
  - intros t _. destruct (is_lit (fsub (fmul (h_k case64) half64) half64) 0 0 0) as [A B]; [vm_compute; reflexivity|lia|cbn; lia|ring|]. unfold boundary64. cbn [h_tf case64]. split; [exact A|]. change (val (fsub (fmul one half64) half64) = 0) in B. fold case64. change (h_k case64) with one. rewrite B, Rabs_R0. lra.
  - reflexivity.
Qed.
