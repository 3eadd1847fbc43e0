(** Reverse accumulation in binary64: the computed gradient is the exact gradient of a tape whose
    partial derivatives are slightly perturbed. *)
From Coq Require Import ZArith Reals Lra Lia List Bool Psatz.
From Flocq Require Import Core.Core IEEE754.BinarySingleNaN Relative.
From Verif Require Import Res MatLib AdModel AdProofs F64Model F64Base F64RootModel F64Root F64AdModel.
Import ListNotations.
Open Scope R_scope.

(** ** Sweeps over functions, for any arithmetic *)
Section sweep.
  Context {T : Type} (add mul : T -> T -> T) (w0 w1 : nat -> T) (t0 t1 : nat -> nat).
  Definition upd (a : nat -> T) (i : nat) (x : T) : nat -> T := fun j => if Nat.eqb j i then x else a j.
  Definition stepf (i : nat) (a : nat -> T) : nat -> T :=
    let a1 := upd a (t0 i) (add (a (t0 i)) (mul (w0 i) (a i))) in upd a1 (t1 i) (add (a1 (t1 i)) (mul (w1 i) (a i))).
  Fixpoint sweepf (n : nat) (a : nat -> T) : nat -> T := match n with O => a | S n' => sweepf n' (stepf n' a) end.
  (** the derivative read at vertex [i] *)
  Fixpoint readf (n : nat) (a : nat -> T) (i : nat) : T :=
    match n with O => a i | S n' => if Nat.eqb i n' then a n' else readf n' (stepf n' a) i end.
  (** what happens to one slot *)
  Definition slot1 (D : nat -> T) (p i : nat) (acc : T) : T :=
    let acc1 := if Nat.eqb p (t0 i) then add acc (mul (w0 i) (D i)) else acc in
    if Nat.eqb p (t1 i) then add acc1 (mul (w1 i) (D i)) else acc1.
  Fixpoint slot (n : nat) (D : nat -> T) (p : nat) (acc : T) : T :=
    match n with O => acc | S n' => slot n' D p (slot1 D p n' acc) end.
  Lemma stepf_slot i a D p : D i = a i -> stepf i a p = slot1 D p i (a p).
  Proof.
    intros E. unfold stepf, slot1, upd. rewrite E. destruct (Nat.eqb_spec p (t1 i)) as [e|].
    - rewrite <- e. destruct (Nat.eqb_spec p (t0 i)) as [e'|]; [rewrite <- e'|]; reflexivity.
    - destruct (Nat.eqb_spec p (t0 i)) as [e'|]; [rewrite <- e'|]; reflexivity.
  Qed.
  Lemma slot_ext n D D' p acc : (forall i, (i < n)%nat -> D i = D' i) -> slot n D p acc = slot n D' p acc.
  Proof.
    revert acc. induction n as [|n IH]; intros acc H; [reflexivity|]. cbn [slot]. replace (slot1 D p n acc) with (slot1 D' p n acc) by (unfold slot1; rewrite (H n) by lia; reflexivity).
    apply IH. intros; apply H; lia.
  Qed.
  Lemma sweepf_slot n : forall a p, sweepf n a p = slot n (readf n a) p (a p).
  Proof.
    induction n as [|n IH]; intros a p; [reflexivity|]. cbn [sweepf slot]. rewrite IH.
    rewrite (stepf_slot n a (readf (S n) a)) by (cbn [readf]; rewrite Nat.eqb_refl; reflexivity).
    apply slot_ext. intros i Hi. cbn [readf]. destruct (Nat.eqb_spec i n); [lia|reflexivity].
  Qed.
  (** parents come before their vertex *)
  Definition parents_le (n : nat) : Prop := forall i, (i < n)%nat -> (t0 i <= i)%nat /\ (t1 i <= i)%nat.
  Lemma slot_done n D p acc : parents_le n -> (n <= p)%nat -> slot n D p acc = acc.
  Proof.
    revert acc. induction n as [|n IH]; intros acc H Hp; [reflexivity|]. cbn [slot]. destruct (H n ltac:(lia)) as [A B].
    assert (E : slot1 D p n acc = acc).
    { unfold slot1. destruct (Nat.eqb_spec p (t0 n)); [lia|]. destruct (Nat.eqb_spec p (t1 n)); [lia|reflexivity]. }
    rewrite E. apply IH; [|lia]. intros i Hi. apply H. lia.
  Qed.
  (** the final value of a slot is the value read there, followed by what the vertex adds to itself *)
  Lemma sweepf_read n : forall a p, parents_le n -> (p < n)%nat -> sweepf n a p = slot1 (readf n a) p p (readf n a p).
  Proof.
    induction n as [|n IH]; intros a p H Hp; [lia|]. cbn [sweepf]. destruct (Nat.eq_dec p n) as [->|N].
    - rewrite sweepf_slot, slot_done by (try lia; intros i Hi; apply H; lia).
      rewrite (stepf_slot n a (readf (S n) a)) by (cbn [readf]; rewrite Nat.eqb_refl; reflexivity).
      f_equal. cbn [readf]. rewrite Nat.eqb_refl. reflexivity.
    - rewrite IH by (try lia; intros i Hi; apply H; lia). unfold slot1. cbn [readf]. destruct (Nat.eqb_spec p n); [lia|reflexivity].
  Qed.
End sweep.

(** ** From lists to functions *)
Definition pz (g : tape64) (i : nat) : vertex64 := nth i g (Vertex64 zero zero i i).
Definition F0 (g : tape64) (i : nat) : f64 := fp0 (pz g i).
Definition F1 (g : tape64) (i : nat) : f64 := fp1 (pz g i).
Definition Q0 (g : tape64) (i : nat) : nat := fq0 (pz g i).
Definition Q1 (g : tape64) (i : nat) : nat := fq1 (pz g i).
Lemma add_at64_fun : forall l i d, (i < length l)%nat -> exists l', add_at64 i d l = Ret l' /\ length l' = length l /\
  forall j, nth j l' zero = upd (fun k => nth k l zero) i (fadd (nth i l zero) d) j.
Proof.
  induction l as [|a l IH]; intros i d H; [cbn in H; lia|]. destruct i as [|i].
  - eexists. split; [reflexivity|]. split; [reflexivity|]. intros [|j]; reflexivity.
  - destruct (IH i d ltac:(cbn in H; lia)) as (l' & E & L & N). cbn [add_at64]. rewrite E. cbn [bind]. eexists. split; [reflexivity|].
    split; [cbn; lia|]. intros [|j]; [reflexivity|]. cbn [nth]. rewrite N. unfold upd. cbn [nth Nat.eqb]. reflexivity.
Qed.
Lemma set_at64_fun : forall l i d, (i < length l)%nat -> exists l', set_at64 i d l = Ret l' /\ length l' = length l /\
  forall j, nth j l' zero = upd (fun k => nth k l zero) i d j.
Proof.
  induction l as [|a l IH]; intros i d H; [cbn in H; lia|]. destruct i as [|i].
  - eexists. split; [reflexivity|]. split; [reflexivity|]. intros [|j]; reflexivity.
  - destruct (IH i d ltac:(cbn in H; lia)) as (l' & E & L & N). cbn [set_at64]. rewrite E. cbn [bind]. eexists. split; [reflexivity|].
    split; [cbn; lia|]. intros [|j]; [reflexivity|]. cbn [nth]. rewrite N. unfold upd. cbn [nth Nat.eqb]. reflexivity.
Qed.
(** the vertices that [Graph::push] makes: parents come first, or the vertex itself with a zero partial *)
Definition vok64 (i : nat) (v : vertex64) : Prop :=
  ((fq0 v < i)%nat \/ (fq0 v = i /\ fp0 v = zero)) /\ ((fq1 v < i)%nat \/ (fq1 v = i /\ fp1 v = zero)).
Definition wf64 (g : tape64) : Prop := forall i v, nth_error g i = Some v -> vok64 i v.
Lemma wf64_pz g i : wf64 g -> vok64 i (pz g i).
Proof.
  intros H. unfold pz. destruct (nth_error g i) as [v|] eqn:E.
  - rewrite (nth_error_nth g i _ E). apply H, E.
  - apply nth_error_None in E. rewrite nth_overflow by exact E. split; right; split; reflexivity.
Qed.
Lemma wf64_le g n : wf64 g -> parents_le (Q0 g) (Q1 g) n.
Proof. intros H i _. destruct (wf64_pz g i H) as [A B]. unfold Q0, Q1. split; lia. Qed.
Lemma sweepf_ext {T} add mul w0 w1 t0 t1 n : forall a b : nat -> T, (forall p, a p = b p) -> forall p, sweepf add mul w0 w1 t0 t1 n a p = sweepf add mul w0 w1 t0 t1 n b p.
Proof.
  induction n as [|n IH]; intros a b H p; [apply H|]. cbn [sweepf]. apply IH. intros q. unfold stepf, upd. rewrite !H. reflexivity.
Qed.
Lemma back_loop64_fun g : wf64 g -> forall n adj, (n <= length g)%nat -> length adj = length g ->
  exists l, back_loop64 n g adj = Ret l /\ length l = length g /\
    forall p, nth p l zero = sweepf fadd fmul (F0 g) (F1 g) (Q0 g) (Q1 g) n (fun k => nth k adj zero) p.
Proof.
  intros W. induction n as [|n IH]; intros adj Hn L.
  - exists adj. repeat split. exact L.
  - cbn [back_loop64]. assert (E : nth_error g n = Some (pz g n)) by (unfold pz; apply nth_error_nth'; lia).
    rewrite E. cbn [unwrap bind]. unfold back_step64. rewrite (nth_error_nth' adj zero) by lia. cbn [unwrap bind].
    destruct (wf64_le g (S n) W n ltac:(lia)) as [A B]. unfold Q0, Q1 in A, B.
    destruct (add_at64_fun adj (fq0 (pz g n)) (fmul (fp0 (pz g n)) (nth n adj zero)) ltac:(lia)) as (l1 & E1 & L1 & N1).
    rewrite E1. cbn [bind].
    destruct (add_at64_fun l1 (fq1 (pz g n)) (fmul (fp1 (pz g n)) (nth n adj zero)) ltac:(lia)) as (l2 & E2 & L2 & N2).
    rewrite E2. cbn [bind]. destruct (IH l2 ltac:(lia) ltac:(lia)) as (l & El & Ll & Nl). exists l. split; [exact El|]. split; [exact Ll|].
    intros p. rewrite Nl. cbn [sweepf]. apply sweepf_ext. intros q. rewrite N2. unfold stepf, F0, F1, Q0, Q1, upd. rewrite !N1. unfold upd. reflexivity.
Qed.
Definition seed64 (k p : nat) : f64 := if Nat.eqb p k then one else zero.
Lemma accumulate64_fun g out : wf64 g -> (findex64 out < length g)%nat ->
  exists l, accumulate64 g out = Ret l /\ length l = length g /\
    forall p, nth p l zero = sweepf fadd fmul (F0 g) (F1 g) (Q0 g) (Q1 g) (length g) (seed64 (findex64 out)) p.
Proof.
  intros W H. unfold accumulate64.
  destruct (set_at64_fun (repeat zero (length g)) (findex64 out) one ltac:(rewrite repeat_length; exact H)) as (l0 & E0 & L0 & N0).
  rewrite E0. cbn [bind]. rewrite repeat_length in L0. destruct (back_loop64_fun g W (length g) l0 (le_n _) L0) as (l & E & L & N).
  exists l. split; [exact E|]. split; [exact L|]. intros p. rewrite N. apply sweepf_ext. intros q. rewrite N0. unfold upd, seed64.
  destruct (Nat.eqb q (findex64 out)); [reflexivity|]. destruct (Nat.lt_ge_cases q (length g)) as [|];
    [apply nth_repeat|apply nth_overflow; rewrite repeat_length; assumption].
Qed.

Definition RP0 (g : tape) (i : nat) : R := part0 (nth i g (Vertex 0 0 i i)).
Definition RP1 (g : tape) (i : nat) : R := part1 (nth i g (Vertex 0 0 i i)).
Definition RQ0 (g : tape) (i : nat) : nat := par0 (nth i g (Vertex 0 0 i i)).
Definition RQ1 (g : tape) (i : nat) : nat := par1 (nth i g (Vertex 0 0 i i)).
Lemma add_at_fun : forall l i d, (i < length l)%nat -> exists l', add_at i d l = Ret l' /\ length l' = length l /\
  forall j, nth j l' 0 = upd (fun k => nth k l 0) i (nth i l 0 + d) j.
Proof.
  induction l as [|a l IH]; intros i d H; [cbn in H; lia|]. destruct i as [|i].
  - eexists. split; [reflexivity|]. split; [reflexivity|]. intros [|j]; reflexivity.
  - destruct (IH i d ltac:(cbn in H; lia)) as (l' & E & L & N). cbn [add_at]. rewrite E. cbn [bind]. eexists. split; [reflexivity|].
    split; [cbn; lia|]. intros [|j]; [reflexivity|]. cbn [nth]. rewrite N. unfold upd. cbn [nth Nat.eqb]. reflexivity.
Qed.
Lemma set_at_fun : forall l i d, (i < length l)%nat -> exists l', set_at i d l = Ret l' /\ length l' = length l /\
  forall j, nth j l' 0 = upd (fun k => nth k l 0) i d j.
Proof.
  induction l as [|a l IH]; intros i d H; [cbn in H; lia|]. destruct i as [|i].
  - eexists. split; [reflexivity|]. split; [reflexivity|]. intros [|j]; reflexivity.
  - destruct (IH i d ltac:(cbn in H; lia)) as (l' & E & L & N). cbn [set_at]. rewrite E. cbn [bind]. eexists. split; [reflexivity|].
    split; [cbn; lia|]. intros [|j]; [reflexivity|]. cbn [nth]. rewrite N. unfold upd. cbn [nth Nat.eqb]. reflexivity.
Qed.
Lemma back_loop_fun g : parents_le (RQ0 g) (RQ1 g) (length g) -> forall n adj, (n <= length g)%nat -> length adj = length g ->
  exists l, back_loop n g adj = Ret l /\ length l = length g /\
    forall p, nth p l 0 = sweepf Rplus Rmult (RP0 g) (RP1 g) (RQ0 g) (RQ1 g) n (fun k => nth k adj 0) p.
Proof.
  intros W. induction n as [|n IH]; intros adj Hn L.
  - exists adj. repeat split. exact L.
  - cbn [back_loop]. assert (E : nth_error g n = Some (nth n g (Vertex 0 0 n n))) by (apply nth_error_nth'; lia).
    rewrite E. cbn [unwrap bind]. unfold back_step. rewrite get_at_spec by lia. cbn [bind].
    destruct (W n ltac:(lia)) as [A B]. unfold RQ0, RQ1 in A, B. set (v := nth n g (Vertex 0 0 n n)) in *.
    destruct (add_at_fun adj (par0 v) (part0 v * nth n adj 0) ltac:(lia)) as (l1 & E1 & L1 & N1).
    rewrite E1. cbn [bind].
    destruct (add_at_fun l1 (par1 v) (part1 v * nth n adj 0) ltac:(lia)) as (l2 & E2 & L2 & N2).
    rewrite E2. cbn [bind]. destruct (IH l2 ltac:(lia) ltac:(lia)) as (l & El & Ll & Nl). exists l. split; [exact El|]. split; [exact Ll|].
    intros p. rewrite Nl. cbn [sweepf]. apply sweepf_ext. intros q. rewrite N2. unfold stepf, RP0, RP1, RQ0, RQ1, upd. fold v. rewrite !N1. unfold upd. reflexivity.
Qed.
Definition seedR (k p : nat) : R := if Nat.eqb p k then 1 else 0.
Lemma accumulate_fun g out : parents_le (RQ0 g) (RQ1 g) (length g) -> (index out < length g)%nat ->
  exists l, accumulate g out = Ret l /\ length l = length g /\
    forall p, nth p l 0 = sweepf Rplus Rmult (RP0 g) (RP1 g) (RQ0 g) (RQ1 g) (length g) (seedR (index out)) p.
Proof.
  intros W H. unfold accumulate.
  destruct (set_at_fun (repeat 0 (length g)) (index out) 1 ltac:(rewrite repeat_length; exact H)) as (l0 & E0 & L0 & N0).
  rewrite E0. cbn [bind]. rewrite repeat_length in L0. destruct (back_loop_fun g W (length g) l0 (le_n _) L0) as (l & E & L & N).
  exists l. split; [exact E|]. split; [exact L|]. intros p. rewrite N. apply sweepf_ext. intros q. rewrite N0. unfold upd, seedR.
  destruct (Nat.eqb q (index out)); [reflexivity|]. destruct (Nat.lt_ge_cases q (length g)) as [|];
    [apply nth_repeat|apply nth_overflow; rewrite repeat_length; assumption].
Qed.

(** ** The triangular system of the adjoints *)
Definition edges (w0 w1 : nat -> R) (t0 t1 : nat -> nat) (X : nat -> R) (p i : nat) : R :=
  (if Nat.eqb p (t0 i) then w0 i * X i else 0) + (if Nat.eqb p (t1 i) then w1 i * X i else 0).
Lemma slotR w0 w1 t0 t1 n D p : forall acc, slot Rplus Rmult w0 w1 t0 t1 n D p acc = acc + bs n (edges w0 w1 t0 t1 D p).
Proof.
  induction n as [|n IH]; intros acc; cbn [slot bs]; [ring|]. rewrite IH. generalize (bs n (edges w0 w1 t0 t1 D p)). intros b. unfold slot1, edges.
  destruct (Nat.eqb p (t0 n)), (Nat.eqb p (t1 n)); ring.
Qed.
(** parents come strictly first, or carry no weight *)
Definition strictR (w0 w1 : nat -> R) (t0 t1 : nat -> nat) : Prop :=
  forall i, ((t0 i < i)%nat \/ (t0 i = i /\ w0 i = 0)) /\ ((t1 i < i)%nat \/ (t1 i = i /\ w1 i = 0)).
Lemma edges_low w0 w1 t0 t1 X p i : strictR w0 w1 t0 t1 -> (i <= p)%nat -> edges w0 w1 t0 t1 X p i = 0.
Proof.
  intros S Hi. destruct (S i) as [A B]. unfold edges.
  destruct (Nat.eqb_spec p (t0 i)); destruct (Nat.eqb_spec p (t1 i)); destruct A as [A|[A A']], B as [B|[B B']]; try lia; rewrite ?A', ?B'; ring.
Qed.
Lemma edges_ext w0 w1 t0 t1 X Y p i : X i = Y i -> edges w0 w1 t0 t1 X p i = edges w0 w1 t0 t1 Y p i.
Proof. intros E. unfold edges. rewrite E. reflexivity. Qed.
Lemma sweepR_system w0 w1 t0 t1 n a : strictR w0 w1 t0 t1 ->
  let X := sweepf Rplus Rmult w0 w1 t0 t1 n a in forall p, X p = a p + bs n (edges w0 w1 t0 t1 X p).
Proof.
  intros S X p. unfold X at 1. rewrite sweepf_slot, slotR. f_equal. apply bs_ext. intros i Hi. apply edges_ext.
  unfold X. assert (L : parents_le t0 t1 n) by (intros j _; destruct (S j); lia). rewrite (sweepf_read _ _ _ _ _ _ n a i L Hi).
  unfold slot1. destruct (S i) as [A B].
  destruct (Nat.eqb_spec i (t0 i)); destruct (Nat.eqb_spec i (t1 i)); destruct A as [A|[A A']], B as [B|[B B']]; try lia; rewrite ?A', ?B'; ring.
Qed.
Lemma system_unique w0 w1 t0 t1 n a X Y : strictR w0 w1 t0 t1 ->
  (forall p, (p < n)%nat -> X p = a p + bs n (edges w0 w1 t0 t1 X p)) ->
  (forall p, (p < n)%nat -> Y p = a p + bs n (edges w0 w1 t0 t1 Y p)) -> forall p, (p < n)%nat -> X p = Y p.
Proof.
  intros S HX HY. assert (G : forall k p, (p < n)%nat -> (n - p <= k)%nat -> X p = Y p).
  { induction k as [|k IH]; intros p Hp Hk; [lia|]. rewrite HX, HY by exact Hp. f_equal. apply bs_ext. intros i Hi.
    destruct (Nat.le_gt_cases i p); [rewrite !edges_low by assumption; reflexivity|]. apply edges_ext, IH; lia. }
  intros p Hp. apply (G n); lia.
Qed.

(** ** Rounding along one slot *)
Definition rel (k : nat) (t : R) : Prop := Rabs t <= (1 + u) ^ k - 1.
Lemma rel_0 k : rel k 0.
Proof. unfold rel. rewrite Rabs_R0. pose proof (pow_R1_Rle (1 + u) k). pose proof u_pos. lra. Qed.
Lemma rel_mono j k t : (j <= k)%nat -> rel j t -> rel k t.
Proof. unfold rel. intros H R. pose proof (Rle_pow (1 + u) j k ltac:(pose proof u_pos; lra) H). lra. Qed.
Lemma rel_mult j k a b : rel j a -> rel k b -> rel (j + k) ((1 + a) * (1 + b) - 1).
Proof.
  unfold rel. intros A B. rewrite pow_add. replace ((1 + a) * (1 + b) - 1) with (a + b + a * b) by ring.
  pose proof (Rabs_triang (a + b) (a * b)). pose proof (Rabs_triang a b). rewrite (Rabs_mult a b) in H.
  pose proof (Rmult_le_compat _ _ _ _ (Rabs_pos a) (Rabs_pos b) A B). lra.
Qed.
Lemma rel_u e : Rabs e <= u -> rel 1 e.
Proof. unfold rel. rewrite pow_1. lra. Qed.
Lemma rnd_rel x : bpow radix2 (-1022) <= Rabs x -> exists e, Rabs e <= u /\ rnd x = x * (1 + e).
Proof.
  intros H. destruct (relative_error_N_FLT_ex radix2 (-1074) 53 eq_refl (fun z => negb (Z.even z)) x H) as (e & E & R).
  exists e. split; [|exact R]. replace u with (/ 2 * bpow radix2 (- (53) + 1)); [exact E|]. unfold u. cbn. lra.
Qed.
(** a product that underflows has no bounded relative error *)
Definition safe (x : R) : Prop := x = 0 \/ bpow radix2 (-1022) <= Rabs x.
Definition nz (w : f64) : nat := if feq w zero then 0%nat else 1%nat.
Lemma nz_0 w : feq w zero = true -> val w = 0.
Proof. unfold feq, zero. destruct w as [s|s| |s m e b]; cbn; try reflexivity; try (destruct s; discriminate). Qed.
Lemma edge_err acc w d : fin (fadd acc (fmul w d)) -> safe (val w * val d) ->
  exists t0 t, rel (nz w) t0 /\ rel (nz w + 1) t /\ val (fadd acc (fmul w d)) = val acc * (1 + t0) + val w * (1 + t) * val d.
Proof.
  intros H Hs. apply fadd_fin in H. destruct H as (Fa & Fm & V & _). apply fmul_fin in Fm. destruct Fm as (Fw & Fd & Vm & _).
  rewrite V, Vm. unfold nz. destruct (feq w zero) eqn:Ew.
  - exists 0, 0. split; [apply rel_0|]. split; [apply rel_0|]. rewrite (nz_0 w Ew), Rmult_0_l, rnd_0, Rplus_0_r, rnd_id by apply val_fmt. ring.
  - destruct (rnd_plus_err (val acc) (rnd (val w * val d)) (val_fmt _) (rnd_fmt _)) as (e2 & B2 & E2). rewrite E2.
    assert (M : exists e1, Rabs e1 <= u /\ rnd (val w * val d) = val w * val d * (1 + e1)).
    { destruct Hs as [Z|Hs]; [|apply rnd_rel, Hs]. exists 0. rewrite Rabs_R0. pose proof u_pos. split; [lra|]. rewrite Z, rnd_0. ring. }
    destruct M as (e1 & B1 & E1). rewrite E1. exists e2, ((1 + e1) * (1 + e2) - 1). split; [apply rel_u, B2|].
    split; [apply (rel_mult 1 1); apply rel_u; assumption|]. ring.
Qed.
Lemma edge_zero acc w d : fin (fadd acc (fmul w d)) -> val w * val d = 0 -> val (fadd acc (fmul w d)) = val acc.
Proof.
  intros H Z. apply fadd_fin in H. destruct H as (Fa & Fm & V & _). apply fmul_fin in Fm. destruct Fm as (Fw & Fd & Vm & _).
  rewrite V, Vm, Z, rnd_0, Rplus_0_r. apply rnd_id, val_fmt.
Qed.

(** how many edges of non-zero weight end in [p], among those of the first [n] vertices *)
Fixpoint uses_from (g : tape64) (n p : nat) : nat :=
  match n with
  | O => O
  | S i => (uses_from g i p + ((if Nat.eqb p (Q0 g i) then nz (F0 g i) else 0) + (if Nat.eqb p (Q1 g i) then nz (F1 g i) else 0)))%nat
  end.
Definition uses (g : tape64) (p : nat) : nat := uses_from g (length g) p.

Section slots.
  Context (g : tape64) (D : nat -> f64) (p : nat).
  Notation sl := (slot fadd fmul (F0 g) (F1 g) (Q0 g) (Q1 g)).
  Notation sl1 := (slot1 fadd fmul (F0 g) (F1 g) (Q0 g) (Q1 g)).
  Lemma slot1_fin i acc : fin (sl1 D p i acc) -> fin acc.
  Proof.
    unfold slot1. intros H. assert (G : forall a b, fin (fadd a b) -> fin a) by (intros a b X; apply fadd_fin in X; tauto).
    destruct (Nat.eqb p (Q1 g i)), (Nat.eqb p (Q0 g i)); repeat (apply G in H); exact H.
  Qed.
  Lemma slot_fin n : forall acc, fin (sl n D p acc) -> fin acc.
  Proof. induction n as [|n IH]; intros acc H; [exact H|]. cbn [slot] in H. apply IH in H. apply slot1_fin in H. exact H. Qed.
  Definition perturbed_edges (t : nat -> bool -> R) (i : nat) : R :=
    (if Nat.eqb p (Q0 g i) then val (F0 g i) * (1 + t i false) * val (D i) else 0) + (if Nat.eqb p (Q1 g i) then val (F1 g i) * (1 + t i true) * val (D i) else 0).
  Definition edge_safe (i : nat) : Prop := safe (val (F0 g i) * val (D i)) /\ safe (val (F1 g i) * val (D i)).
  Lemma slot1_err i acc : fin (sl1 D p i acc) -> edge_safe i ->
    let k := ((if Nat.eqb p (Q0 g i) then nz (F0 g i) else 0) + (if Nat.eqb p (Q1 g i) then nz (F1 g i) else 0))%nat in
    exists t0 t, rel k t0 /\ (forall b, rel (k + 1) (t b)) /\
      val (sl1 D p i acc) = val acc * (1 + t0) + perturbed_edges (fun _ => t) i.
  Proof.
    unfold slot1, perturbed_edges. intros H (S0 & S1). cbv zeta.
    destruct (Nat.eqb p (Q1 g i)), (Nat.eqb p (Q0 g i)).
    - destruct (edge_err _ _ _ H S1) as (b0 & b & B0 & B & E1). apply fadd_fin in H. destruct H as (H & _).
      destruct (edge_err _ _ _ H S0) as (a0 & a & A0 & A & E0). rewrite E1, E0.
      exists ((1 + a0) * (1 + b0) - 1), (fun s : bool => if s then b else (1 + a) * (1 + b0) - 1). split; [apply rel_mult; assumption|]. split.
      + intros [|]; [apply (rel_mono (nz (F1 g i) + 1)); [lia|exact B]|apply (rel_mono (nz (F0 g i) + 1 + nz (F1 g i))); [lia|apply rel_mult; assumption]].
      + ring.
    - destruct (edge_err _ _ _ H S1) as (b0 & b & B0 & B & E1). rewrite E1. exists b0, (fun _ => b). split; [exact B0|]. split; [intros; exact B|ring].
    - destruct (edge_err _ _ _ H S0) as (b0 & b & B0 & B & E1). rewrite E1. exists b0, (fun _ => b). rewrite Nat.add_0_r. split; [exact B0|]. split; [intros; exact B|ring].
    - exists 0, (fun _ => 0). split; [apply rel_0|]. split; [intros; apply rel_0|ring].
  Qed.
  Lemma slot_err n : forall acc, fin (sl n D p acc) -> (forall i, (i < n)%nat -> edge_safe i) ->
    exists t0 t, rel (uses_from g n p) t0 /\ (forall i b, rel (uses_from g n p + 1) (t i b)) /\
      val (sl n D p acc) = val acc * (1 + t0) + bs n (perturbed_edges t).
  Proof.
    induction n as [|n IH]; intros acc H Hs; cbn [slot bs uses_from] in *.
    - exists 0, (fun _ _ => 0). split; [apply rel_0|]. split; [intros; apply rel_0|]. ring.
    - destruct (IH _ H (fun i Hi => Hs i ltac:(lia))) as (t0 & t & B0 & B & E). apply slot_fin in H.
      destruct (slot1_err n acc H (Hs n ltac:(lia))) as (a0 & a & A0 & A & Ea).
      set (k := ((if Nat.eqb p (Q0 g n) then nz (F0 g n) else 0) + (if Nat.eqb p (Q1 g n) then nz (F1 g n) else 0))%nat) in *.
      exists ((1 + a0) * (1 + t0) - 1), (fun i b => if Nat.eqb i n then (1 + a b) * (1 + t0) - 1 else t i b). split; [|split].
      + rewrite Nat.add_comm. apply rel_mult; assumption.
      + intros i b. destruct (Nat.eqb i n).
        * apply (rel_mono (k + 1 + uses_from g n p)); [lia|]. apply rel_mult; [apply A|exact B0].
        * apply (rel_mono (uses_from g n p + 1)); [lia|apply B].
      + rewrite E, Ea.
        rewrite (bs_ext n (perturbed_edges (fun i b => if Nat.eqb i n then (1 + a b) * (1 + t0) - 1 else t i b)) (perturbed_edges t)).
        2:{ intros i Hi. unfold perturbed_edges. destruct (Nat.eqb_spec i n); [lia|reflexivity]. }
        unfold perturbed_edges. rewrite Nat.eqb_refl. destruct (Nat.eqb p (Q0 g n)), (Nat.eqb p (Q1 g n)); ring.
  Qed.
  Lemma slot_zero n : forall acc, fin (sl n D p acc) ->
    (forall i, (i < n)%nat -> (p = Q0 g i -> val (F0 g i) * val (D i) = 0) /\ (p = Q1 g i -> val (F1 g i) * val (D i) = 0)) ->
    val (sl n D p acc) = val acc.
  Proof.
    induction n as [|n IH]; intros acc H Z; cbn [slot] in *; [reflexivity|].
    rewrite IH by (exact H || (intros; apply Z; lia)). apply slot_fin in H. destruct (Z n ltac:(lia)) as [Z0 Z1].
    unfold slot1 in *. destruct (Nat.eqb_spec p (Q0 g n)) as [e0|], (Nat.eqb_spec p (Q1 g n)) as [e1|]; try reflexivity.
    - rewrite edge_zero by (exact H || apply Z1, e1). apply fadd_fin in H. apply edge_zero; [apply H|apply Z0, e0].
    - apply edge_zero; [exact H|apply Z0, e0].
    - apply edge_zero; [exact H|apply Z1, e1].
  Qed.
End slots.

(** ** The backward error of a whole sweep *)
Definition perturbed (g : tape64) (g' : tape) : Prop :=
  length g' = length g /\ forall i v, nth_error g i = Some v -> exists s0 s1,
    nth_error g' i = Some (Vertex (val (fp0 v) * (1 + s0)) (val (fp1 v) * (1 + s1)) (fq0 v) (fq1 v)) /\
    Rabs s0 <= (1 + u) ^ (uses g (fq0 v) + 1) - 1 /\ Rabs s1 <= (1 + u) ^ (uses g (fq1 v) + 1) - 1.
(** no product of the sweep underflows *)
Definition no_underflow (g : tape64) (adj : list f64) : Prop :=
  forall i v a, nth_error g i = Some v -> nth_error adj i = Some a -> safe (val (fp0 v) * val a) /\ safe (val (fp1 v) * val a).

Lemma finite_choice {A} (a0 : A) (P : nat -> A -> Prop) n : (forall p, (p < n)%nat -> exists t, P p t) ->
  exists T : nat -> A, forall p, (p < n)%nat -> P p (T p).
Proof.
  induction n as [|n IH]; intros H; [exists (fun _ => a0); intros; lia|].
  destruct IH as (T & HT); [intros p Hp; apply H; lia|]. destruct (H n ltac:(lia)) as (t & Ht).
  exists (fun p => if Nat.eqb p n then t else T p). intros p Hp. destruct (Nat.eqb_spec p n) as [->|]; [exact Ht|apply HT; lia].
Qed.
Section main.
  Context (g : tape64) (out : var64) (adj : list f64) (W : wf64 g) (Ho : (findex64 out < length g)%nat)
    (E : accumulate64 g out = Ret adj) (FA : Forall fin adj).
  Notation n := (length g).
  Notation k := (findex64 out).
  Definition Adj (p : nat) : R := val (nth p adj zero).
  Definition Dr : nat -> f64 := readf fadd fmul (F0 g) (F1 g) (Q0 g) (Q1 g) n (seed64 k).
  Lemma adj_len : length adj = n.
  Proof. destruct (accumulate64_fun g out W Ho) as (l & El & L & _). assert (l = adj) by congruence. subst. exact L. Qed.
  Lemma adj_slot p : nth p adj zero = slot fadd fmul (F0 g) (F1 g) (Q0 g) (Q1 g) n Dr p (seed64 k p).
  Proof.
    destruct (accumulate64_fun g out W Ho) as (l & El & L & N). assert (l = adj) by congruence. subst l.
    rewrite N, sweepf_slot. reflexivity.
  Qed.
  Lemma adj_fin p : (p < n)%nat -> fin (nth p adj zero).
  Proof. intros Hp. rewrite Forall_forall in FA. apply FA, nth_In. rewrite adj_len. exact Hp. Qed.
  Lemma weight_cases i : ((Q0 g i < i)%nat \/ (Q0 g i = i /\ val (F0 g i) = 0)) /\ ((Q1 g i < i)%nat \/ (Q1 g i = i /\ val (F1 g i) = 0)).
  Proof.
    destruct (wf64_pz g i W) as [A B]. unfold Q0, Q1, F0, F1. split.
    - destruct A as [A|[A ->]]; [left; exact A|right; split; [exact A|reflexivity]].
    - destruct B as [B|[B ->]]; [left; exact B|right; split; [exact B|reflexivity]].
  Qed.
  Lemma read_val p : (p < n)%nat -> val (Dr p) = Adj p.
  Proof.
    intros Hp. pose proof (adj_fin p Hp) as Fp. unfold Adj.
    destruct (accumulate64_fun g out W Ho) as (l & El & L & N). assert (l = adj) by congruence. subst l.
    rewrite N in *. rewrite (sweepf_read _ _ _ _ _ _ n (seed64 k) p (wf64_le g n W) Hp) in *. fold Dr in *.
    unfold slot1 in *. destruct (weight_cases p) as [A B].
    destruct (Nat.eqb_spec p (Q0 g p)), (Nat.eqb_spec p (Q1 g p)); try lia.
    - destruct A as [A|[_ A]]; [lia|]. destruct B as [B|[_ B]]; [lia|].
      rewrite edge_zero by (exact Fp || (rewrite B; ring)). apply fadd_fin in Fp. rewrite edge_zero by (apply Fp || (rewrite A; ring)). reflexivity.
    - destruct A as [A|[_ A]]; [lia|]. rewrite edge_zero by (exact Fp || (rewrite A; ring)). reflexivity.
    - destruct B as [B|[_ B]]; [lia|]. rewrite edge_zero by (exact Fp || (rewrite B; ring)). reflexivity.
    - reflexivity.
  Qed.
  Lemma seed_val p : val (seed64 k p) = seedR k p.
  Proof. unfold seed64, seedR. destruct (Nat.eqb p k); [apply one_R|reflexivity]. Qed.
  (** vertices after the output do not matter *)
  Lemma adj_above : forall p, (k < p)%nat -> (p < n)%nat -> Adj p = 0.
  Proof.
    assert (G : forall m p, (k < p)%nat -> (p < n)%nat -> (n - p <= m)%nat -> Adj p = 0).
    { induction m as [|m IH]; intros p Hk Hp Hm; [lia|]. unfold Adj. pose proof (adj_fin p Hp) as Fp. rewrite adj_slot in *.
      rewrite slot_zero; [rewrite seed_val; unfold seedR; destruct (Nat.eqb_spec p k); [lia|reflexivity]|exact Fp|].
      intros i Hi. rewrite read_val by exact Hi. destruct (weight_cases i) as [A B].
      split; intros e; [destruct A as [A|[A ->]]|destruct B as [B|[B ->]]]; try ring; rewrite (IH i) by lia; ring. }
    intros p Hk Hp. apply (G n p); lia.
  Qed.
  Lemma adj_equation : no_underflow g adj -> forall p, (p < n)%nat -> exists t : nat -> bool -> R,
    (forall i b, rel (uses g p + 1) (t i b)) /\
    Adj p = seedR k p + bs n (fun i => (if Nat.eqb p (Q0 g i) then val (F0 g i) * (1 + t i false) * Adj i else 0)
                                     + (if Nat.eqb p (Q1 g i) then val (F1 g i) * (1 + t i true) * Adj i else 0)).
  Proof.
    intros NU p Hp. pose proof (adj_fin p Hp) as Fp. destruct (Nat.eq_dec p k) as [Ek|Nk].
    - exists (fun _ _ => 0). split; [intros; apply rel_0|].
      assert (Z : forall i, (i < n)%nat -> (p = Q0 g i -> val (F0 g i) * Adj i = 0) /\ (p = Q1 g i -> val (F1 g i) * Adj i = 0)).
      { intros i Hi. destruct (weight_cases i) as [A B].
        split; intros e; [destruct A as [A|[A ->]]|destruct B as [B|[B ->]]]; try ring; rewrite (adj_above i) by lia; ring. }
      rewrite (bs_ext n _ (fun _ => 0)), bs_zero.
      + unfold Adj. rewrite adj_slot in *. rewrite slot_zero; [rewrite seed_val; ring|exact Fp|]. intros i Hi. rewrite read_val by exact Hi. apply Z, Hi.
      + intros i Hi. destruct (Z i Hi) as [Z0 Z1]. destruct (Nat.eqb_spec p (Q0 g i)) as [e0|], (Nat.eqb_spec p (Q1 g i)) as [e1|];
          rewrite ?Rplus_0_r, ?Rmult_1_r, ?Z0, ?Z1 by assumption; ring.
    - unfold Adj at 1. rewrite adj_slot in *.
      destruct (slot_err g Dr p n (seed64 k p) Fp) as (t0 & t & _ & B & Et).
      + intros i Hi. unfold edge_safe. rewrite read_val by exact Hi. unfold Adj. apply (NU i (pz g i) (nth i adj zero)).
        * unfold pz. apply nth_error_nth'. exact Hi.
        * apply nth_error_nth'. rewrite adj_len. exact Hi.
      + exists t. split; [exact B|]. rewrite Et, seed_val. unfold seedR. destruct (Nat.eqb_spec p k); [lia|]. f_equal; [ring|].
        apply bs_ext. intros i Hi. unfold perturbed_edges. rewrite read_val by exact Hi. reflexivity.
  Qed.
End main.

Lemma accumulate64_index g out adj : accumulate64 g out = Ret adj -> (findex64 out < length g)%nat.
Proof.
  intros H. destruct (Nat.lt_ge_cases (findex64 out) (length g)) as [L|L]; [exact L|]. exfalso.
  unfold accumulate64 in H. replace (set_at64 (findex64 out) one (repeat zero (length g))) with (@Panic (list f64)) in H; [discriminate|].
  clear H. revert L. generalize (findex64 out). induction (length g) as [|m IH]; intros i L; [destruct i; reflexivity|].
  destruct i as [|i]; [lia|]. cbn [repeat set_at64]. rewrite <- IH by lia. reflexivity.
Qed.
(** a tape given by functions *)
Definition tape_of (n : nat) (w0 w1 : nat -> R) (t0 t1 : nat -> nat) : tape := map (fun i => Vertex (w0 i) (w1 i) (t0 i) (t1 i)) (seq 0 n).
Lemma tape_of_nth n w0 w1 t0 t1 i : (i < n)%nat -> nth_error (tape_of n w0 w1 t0 t1) i = Some (Vertex (w0 i) (w1 i) (t0 i) (t1 i)).
Proof.
  intros H. unfold tape_of. rewrite nth_error_map. rewrite (nth_error_nth' (seq 0 n) O) by (rewrite seq_length; exact H).
  cbn. rewrite seq_nth by exact H. reflexivity.
Qed.
Lemma tape_of_accumulate n w0 w1 t0 t1 y k : strictR w0 w1 t0 t1 -> (k < n)%nat ->
  exists l, accumulate (tape_of n w0 w1 t0 t1) (Var y k) = Ret l /\ length l = n /\
    forall p, (p < n)%nat -> nth p l 0 = seedR k p + bs n (edges w0 w1 t0 t1 (fun i => nth i l 0) p).
Proof.
  intros S Hk. set (g := tape_of n w0 w1 t0 t1). assert (Lg : length g = n) by (unfold g, tape_of; rewrite map_length, seq_length; reflexivity).
  assert (N : forall i, (i < n)%nat -> nth i g (Vertex 0 0 i i) = Vertex (w0 i) (w1 i) (t0 i) (t1 i)).
  { intros i Hi. apply nth_error_nth. apply tape_of_nth, Hi. }
  destruct (accumulate_fun g (Var y k)) as (l & E & L & V).
  { intros i Hi. rewrite Lg in Hi. unfold RQ0, RQ1. rewrite N by exact Hi. cbn. destruct (S i). lia. }
  { cbn. lia. }
  exists l. split; [exact E|]. split; [lia|]. intros p Hp.
  assert (SR : strictR (RP0 g) (RP1 g) (RQ0 g) (RQ1 g)).
  { intros i. unfold RP0, RP1, RQ0, RQ1. destruct (Nat.lt_ge_cases i n) as [Hi|Hi]; [rewrite N by exact Hi; apply S|].
    rewrite nth_overflow by lia. cbn. auto. }
  rewrite V. cbn [index]. rewrite (sweepR_system _ _ _ _ _ _ SR). f_equal. rewrite Lg. apply bs_ext. intros i Hi.
  unfold edges, RP0, RP1, RQ0, RQ1. rewrite N by exact Hi. cbn [part0 part1 par0 par1]. rewrite <- Lg, <- V. reflexivity.
Qed.

Theorem gradient64_backward : forall g out adj, wf64 g -> accumulate64 g out = Ret adj -> Forall fin adj -> no_underflow g adj ->
  exists g', perturbed g g' /\ forall y, accumulate g' (Var y (findex64 out)) = Ret (map val adj).
Proof.
  intros g out adj W E FA NU. pose proof (accumulate64_index _ _ _ E) as Ho.
  destruct (finite_choice (fun _ _ => 0) _ (length g) (adj_equation g out adj W Ho E FA NU)) as (T & HT).
  set (w0 := fun i => val (F0 g i) * (1 + T (Q0 g i) i false)). set (w1 := fun i => val (F1 g i) * (1 + T (Q1 g i) i true)).
  assert (S : strictR w0 w1 (Q0 g) (Q1 g)).
  { intros i. destruct (weight_cases g W i) as [A B]. unfold w0, w1. split.
    - destruct A as [A|[A ->]]; [left; exact A|right; split; [exact A|ring]].
    - destruct B as [B|[B ->]]; [left; exact B|right; split; [exact B|ring]]. }
  exists (tape_of (length g) w0 w1 (Q0 g) (Q1 g)). split.
  - split; [unfold tape_of; rewrite map_length, seq_length; reflexivity|]. intros i v Hv.
    assert (Hi : (i < length g)%nat) by (apply nth_error_Some; congruence).
    assert (Ev : pz g i = v) by (unfold pz; apply nth_error_nth, Hv).
    exists (T (Q0 g i) i false), (T (Q1 g i) i true). rewrite tape_of_nth by exact Hi. unfold w0, w1. destruct (wf64_le g (length g) W i Hi) as [L0 L1].
    split; [unfold F0, F1, Q0, Q1; rewrite Ev; reflexivity|]. rewrite <- Ev. fold (Q0 g i) (Q1 g i). split; apply HT; lia.
  - intros y. destruct (tape_of_accumulate (length g) w0 w1 (Q0 g) (Q1 g) y _ S Ho) as (l & El & Ll & Vl). rewrite El. f_equal.
    pose proof (adj_len g out adj W Ho E) as La.
    apply (nth_ext _ _ 0 0); [rewrite map_length; lia|]. intros p Hp. rewrite Ll in Hp.
    replace (nth p (map val adj) 0) with (Adj adj p) by (unfold Adj; symmetry; change 0 with (val zero); apply map_nth).
    apply (system_unique w0 w1 (Q0 g) (Q1 g) (length g) (seedR (findex64 out)) (fun i => nth i l 0) (Adj adj) S); [exact Vl| |exact Hp].
    intros q Hq. destruct (HT q Hq) as (_ & Eq). rewrite Eq. f_equal. apply bs_ext. intros i Hi. unfold edges, w0, w1.
    destruct (Nat.eqb_spec q (Q0 g i)) as [<-|], (Nat.eqb_spec q (Q1 g i)) as [<-|]; reflexivity.
Qed.
Print Assumptions gradient64_backward.

(** ** The forward error *)
Definition exact_tape (g : tape64) : tape := map (fun v => Vertex (val (fp0 v)) (val (fp1 v)) (fq0 v) (fq1 v)) g.
Definition abs_tape (g : tape64) : tape := map (fun v => Vertex (Rabs (val (fp0 v))) (Rabs (val (fp1 v))) (fq0 v) (fq1 v)) g.
Lemma tape_of_map (f : vertex64 -> R) (h : vertex64 -> R) g :
  map (fun v => Vertex (f v) (h v) (fq0 v) (fq1 v)) g = tape_of (length g) (fun i => f (pz g i)) (fun i => h (pz g i)) (Q0 g) (Q1 g).
Proof.
  apply (nth_ext _ _ (Vertex 0 0 0 0) (Vertex 0 0 0 0)); [unfold tape_of; rewrite !map_length, seq_length; reflexivity|].
  intros i Hi. rewrite (nth_error_nth _ i _ (tape_of_nth _ _ _ _ _ i ltac:(rewrite map_length in Hi; exact Hi))).
  rewrite (nth_indep _ _ (Vertex (f (Vertex64 zero zero i i)) (h (Vertex64 zero zero i i)) i i) Hi).
  exact (map_nth (fun v => Vertex (f v) (h v) (fq0 v) (fq1 v)) g (Vertex64 zero zero i i) i).
Qed.
Lemma bs_abs n f : Rabs (bs n f) <= bs n (fun i => Rabs (f i)).
Proof. induction n as [|n IH]; cbn [bs]; [rewrite Rabs_R0; lra|]. eapply Rle_trans; [apply Rabs_triang|]. lra. Qed.
(** the edges that end at or after [p], with one more per vertex *)
Fixpoint budget (g : tape64) (m : nat) : nat := match m with O => O | S m' => (budget g m' + (uses g (length g - S m') + 1))%nat end.
Fixpoint nsum (n : nat) (f : nat -> nat) : nat := match n with O => O | S m => (nsum m f + f m)%nat end.
Lemma nsum_le n f h : (forall i, (i < n)%nat -> (f i <= h i)%nat) -> (nsum n f <= nsum n h)%nat.
Proof. induction n as [|n IH]; intros H; cbn [nsum]; [lia|]. pose proof (H n ltac:(lia)). pose proof (IH (fun i Hi => H i ltac:(lia))). lia. Qed.
Lemma nsum_plus n f h : nsum n (fun i => (f i + h i)%nat) = (nsum n f + nsum n h)%nat.
Proof. induction n as [|n IH]; cbn [nsum]; lia. Qed.
Lemma nsum_one n : nsum n (fun _ => 1%nat) = n.
Proof. induction n as [|n IH]; cbn [nsum]; lia. Qed.
Lemma nsum_0 n : nsum n (fun _ => 0%nat) = 0%nat.
Proof. induction n as [|n IH]; cbn [nsum]; lia. Qed.
Lemma nsum_point n q c : (nsum n (fun p => if Nat.eqb p q then c else O) <= c)%nat.
Proof.
  assert (G : (nsum n (fun p => if Nat.eqb p q then c else O) <= c)%nat /\ ((n <= q)%nat -> nsum n (fun p => if Nat.eqb p q then c else O) = 0%nat)).
  { induction n as [|n [IH Z]]; cbn [nsum]; [lia|]. destruct (Nat.eqb_spec n q); lia. }
  apply G.
Qed.
Lemma nz_le w : (nz w <= 1)%nat.
Proof. unfold nz. destruct (feq w zero); lia. Qed.
Lemma uses_total g n m : (nsum n (uses_from g m) <= 2 * m)%nat.
Proof.
  induction m as [|m IH]; cbn [uses_from]; [rewrite nsum_0; lia|]. rewrite nsum_plus, nsum_plus.
  pose proof (nsum_point n (Q0 g m) (nz (F0 g m))). pose proof (nsum_point n (Q1 g m) (nz (F1 g m))).
  pose proof (nz_le (F0 g m)). pose proof (nz_le (F1 g m)). lia.
Qed.
Lemma budget_sum g m : (m <= length g)%nat -> (budget g m + nsum (length g - m) (fun q => uses g q + 1) = nsum (length g) (fun q => uses g q + 1))%nat.
Proof.
  induction m as [|m IH]; intros H; [rewrite Nat.sub_0_r; reflexivity|]. cbn [budget]. rewrite <- IH by lia.
  replace (length g - m)%nat with (S (length g - S m)) by lia. cbn [nsum]. lia.
Qed.
Lemma budget_le g m : (m <= length g)%nat -> (budget g m <= 3 * length g)%nat.
Proof.
  intros H. pose proof (budget_sum g m H) as E. pose proof (nsum_plus (length g) (uses g) (fun _ => 1%nat)) as P. rewrite nsum_one in P. cbv beta in P. pose proof (uses_total g (length g) (length g)) as T.
  change (nsum (length g) (uses_from g (length g))) with (nsum (length g) (uses g)) in T. lia.
Qed.
Lemma budget_mono g : forall j k, (j <= k)%nat -> (budget g j <= budget g k)%nat.
Proof. intros j k H. induction H; [lia|]. cbn [budget]. lia. Qed.

Theorem gradient64_forward : forall g out adj, wf64 g -> accumulate64 g out = Ret adj -> Forall fin adj -> no_underflow g adj ->
  exists X B, length adj = length g /\ (forall y, accumulate (exact_tape g) (Var y (findex64 out)) = Ret X) /\
    (forall y, accumulate (abs_tape g) (Var y (findex64 out)) = Ret B) /\
    forall p a x b, nth_error adj p = Some a -> nth_error X p = Some x -> nth_error B p = Some b ->
      Rabs (val a - x) <= ((1 + u) ^ (3 * length g) - 1) * b.
Proof.
  intros g out adj W E FA NU. pose proof (accumulate64_index _ _ _ E) as Ho.
  pose proof (adj_len g out adj W Ho E) as La. pose proof (adj_equation g out adj W Ho E FA NU) as AE.
  set (n := length g) in *. set (k := findex64 out) in *.
  unfold exact_tape, abs_tape. rewrite (tape_of_map (fun v => val (fp0 v)) (fun v => val (fp1 v)) g).
  rewrite (tape_of_map (fun v => Rabs (val (fp0 v))) (fun v => Rabs (val (fp1 v))) g). fold n.
  set (w0 := fun i => val (fp0 (pz g i))). set (w1 := fun i => val (fp1 (pz g i))).
  set (v0 := fun i => Rabs (val (fp0 (pz g i)))). set (v1 := fun i => Rabs (val (fp1 (pz g i)))).
  assert (SW : strictR w0 w1 (Q0 g) (Q1 g)) by (intros i; apply (weight_cases g W i)).
  assert (SV : strictR v0 v1 (Q0 g) (Q1 g)).
  { intros i. destruct (weight_cases g W i) as [A B]. unfold v0, v1. fold (F0 g i) (F1 g i). split.
    - destruct A as [A|[A ->]]; [left; exact A|right; split; [exact A|apply Rabs_R0]].
    - destruct B as [B|[B ->]]; [left; exact B|right; split; [exact B|apply Rabs_R0]]. }
  assert (Y : forall v0 v1, strictR v0 v1 (Q0 g) (Q1 g) -> exists l, (forall y, accumulate (tape_of n v0 v1 (Q0 g) (Q1 g)) (Var y k) = Ret l) /\ length l = n /\
    forall p, (p < n)%nat -> nth p l 0 = seedR k p + bs n (edges v0 v1 (Q0 g) (Q1 g) (fun i => nth i l 0) p)).
  { intros a b S. destruct (tape_of_accumulate n a b (Q0 g) (Q1 g) 0 k S Ho) as (l & El & R). exists l. split; [intros y; exact El|exact R]. }
  destruct (Y _ _ SW) as (X & EX & LX & HX). destruct (Y _ _ SV) as (B & EB & LB & HB). clear Y.
  exists X, B. split; [exact La|]. split; [exact EX|]. split; [exact EB|].
  assert (seed_pos : forall p, 0 <= seedR k p) by (intros p; unfold seedR; destruct (Nat.eqb p k); lra).
  assert (PB : forall m p, (p < n)%nat -> (n - p <= m)%nat -> 0 <= nth p B 0 /\ Rabs (nth p X 0) <= nth p B 0).
  { induction m as [|m IH]; intros p Hp Hm; [lia|].
    assert (ED : forall i, (i < n)%nat -> Rabs (edges w0 w1 (Q0 g) (Q1 g) (fun i => nth i X 0) p i) <= edges v0 v1 (Q0 g) (Q1 g) (fun i => nth i B 0) p i).
    { intros i Hi. destruct (Nat.le_gt_cases i p) as [L|L]; [rewrite !edges_low by assumption; rewrite Rabs_R0; lra|].
      destruct (IH i Hi ltac:(lia)) as [_ I]. unfold edges. eapply Rle_trans; [apply Rabs_triang|]. apply Rplus_le_compat.
      - destruct (Nat.eqb p (Q0 g i)); [|rewrite Rabs_R0; lra]. rewrite Rabs_mult. apply Rmult_le_compat_l; [apply Rabs_pos|exact I].
      - destruct (Nat.eqb p (Q1 g i)); [|rewrite Rabs_R0; lra]. rewrite Rabs_mult. apply Rmult_le_compat_l; [apply Rabs_pos|exact I]. }
    assert (AB : Rabs (nth p X 0) <= nth p B 0).
    { rewrite HX, HB by exact Hp. eapply Rle_trans; [apply Rabs_triang|]. rewrite (Rabs_pos_eq (seedR k p)) by apply seed_pos.
      apply Rplus_le_compat_l. eapply Rle_trans; [apply bs_abs|]. apply bs_le. exact ED. }
    split; [eapply Rle_trans; [apply Rabs_pos|exact AB]|exact AB]. }
  assert (PB' : forall p, (p < n)%nat -> 0 <= nth p B 0 /\ Rabs (nth p X 0) <= nth p B 0) by (intros p Hp; apply (PB n); lia).
  assert (u1 : 1 <= 1 + u) by (pose proof u_pos; lra).
  assert (MAIN : forall m p, (p < n)%nat -> (n - p <= m)%nat -> Rabs (Adj adj p - nth p X 0) <= ((1 + u) ^ budget g (n - p) - 1) * nth p B 0).
  { induction m as [|m IH]; intros p Hp Hm; [lia|]. destruct (AE p Hp) as (t & Bt & Et).
    assert (Bud : forall i, (p < i)%nat -> (i < n)%nat -> (uses g p + 1 + budget g (n - i) <= budget g (n - p))%nat).
    { intros i Hi Hn. replace (n - p)%nat with (S (n - S p)) by lia. cbn [budget]. fold n. replace (n - S (n - S p))%nat with p by lia.
      pose proof (budget_mono g (n - i) (n - S p) ltac:(lia)). lia. }
    set (G := (1 + u) ^ budget g (n - p)) in *.
    assert (G1 : 0 <= G - 1) by (unfold G; pose proof (pow_R1_Rle (1 + u) (budget g (n - p)) u1); lra).
    assert (TERM : forall w i s, (p < i)%nat -> (i < n)%nat -> rel (uses g p + 1) s ->
      Rabs (w * (1 + s) * Adj adj i - w * nth i X 0) <= Rabs w * ((G - 1) * nth i B 0)).
    { intros w i s Hpi Hi Hs. replace (w * (1 + s) * Adj adj i - w * nth i X 0) with (w * ((1 + s) * (Adj adj i - nth i X 0) + s * nth i X 0)) by ring.
      rewrite Rabs_mult. apply Rmult_le_compat_l; [apply Rabs_pos|]. pose proof (IH i Hi ltac:(lia)) as I. destruct (PB' i Hi) as [Bp XB].
      unfold rel in Hs. set (Gs := (1 + u) ^ (uses g p + 1)) in *. set (Gi := (1 + u) ^ budget g (n - i)) in *.
      assert (GG : Gs * Gi <= G). { unfold Gs, Gi, G. rewrite <- pow_add. apply Rle_pow; [exact u1|]. apply Bud; assumption. }
      assert (Gi1 : 1 <= Gi) by (apply pow_R1_Rle, u1). assert (Gs1 : 1 <= Gs) by (apply pow_R1_Rle, u1).
      assert (S1 : Rabs (1 + s) <= Gs). { eapply Rle_trans; [apply Rabs_triang|]. rewrite Rabs_R1. lra. }
      eapply Rle_trans; [apply Rabs_triang|]. rewrite !Rabs_mult.
      pose proof (Rmult_le_compat _ _ _ _ (Rabs_pos (1 + s)) (Rabs_pos (Adj adj i - nth i X 0)) S1 I) as M1.
      pose proof (Rmult_le_compat _ _ _ _ (Rabs_pos s) (Rabs_pos (nth i X 0)) Hs XB) as M2.
      pose proof (Rmult_le_compat_r _ _ _ Bp GG). nra. }
    assert (LOW : forall i b, (i < n)%nat -> (i <= p)%nat -> (p = (if b : bool then Q1 g i else Q0 g i)) -> (if b then w1 i else w0 i) = 0).
    { intros i b Hi L e. destruct (SW i) as [A1 A2]. destruct b; [destruct A2 as [A2|[_ A2]]|destruct A1 as [A1|[_ A1]]]; try lia; assumption. }
    rewrite Et, HX by exact Hp.
    match goal with |- Rabs (_ + bs n ?f - (_ + bs n ?h)) <= _ =>
      replace (seedR k p + bs n f - (seedR k p + bs n h)) with (bs n (fun i => f i + -1 * h i)) by (rewrite bs_plus, bs_scal; ring) end.
    eapply Rle_trans; [apply bs_abs|]. apply Rle_trans with (bs n (fun i => (G - 1) * edges v0 v1 (Q0 g) (Q1 g) (fun i => nth i B 0) p i)).
    - apply bs_le. intros i Hi. unfold edges. fold (F0 g i) (F1 g i) in *.
      change (w0 i) with (val (F0 g i)). change (w1 i) with (val (F1 g i)). change (v0 i) with (Rabs (val (F0 g i))). change (v1 i) with (Rabs (val (F1 g i))).
      assert (ONE : forall b : bool, Rabs ((if Nat.eqb p (if b then Q1 g i else Q0 g i) then val (if b then F1 g i else F0 g i) * (1 + t i b) * Adj adj i else 0)
          - (if Nat.eqb p (if b then Q1 g i else Q0 g i) then val (if b then F1 g i else F0 g i) * nth i X 0 else 0))
          <= (G - 1) * (if Nat.eqb p (if b then Q1 g i else Q0 g i) then Rabs (val (if b then F1 g i else F0 g i)) * nth i B 0 else 0)).
      { intros b. destruct (Nat.eqb_spec p (if b then Q1 g i else Q0 g i)) as [e|]; [|rewrite Rminus_0_r, Rabs_R0; lra].
        destruct (Nat.le_gt_cases i p) as [L|L].
        - pose proof (LOW i b Hi L e) as Z. assert (Zv : val (if b then F1 g i else F0 g i) = 0) by (destruct b; exact Z). rewrite Zv.
          rewrite !Rmult_0_l, Rminus_0_r, Rabs_R0. lra.
        - pose proof (TERM (val (if b then F1 g i else F0 g i)) i (t i b) L Hi (Bt i b)) as TT. lra. }
      pose proof (ONE false) as O0. pose proof (ONE true) as O1. cbn [negb] in O0, O1. cbv iota in O0, O1.
      match goal with |- Rabs ?z <= _ => match type of O0 with Rabs ?a <= _ => match type of O1 with Rabs ?b <= _ => replace z with (a + b) by ring end end end.
      eapply Rle_trans; [apply Rabs_triang|]. lra.
    - rewrite bs_scal. apply Rmult_le_compat_l; [exact G1|]. rewrite (HB p Hp). pose proof (seed_pos p). lra. }
  intros p a x b Ha Hx Hb.
  assert (Hp : (p < n)%nat) by (rewrite <- La; apply nth_error_Some; congruence).
  pose proof (MAIN n p Hp ltac:(lia)) as M. unfold Adj in M. rewrite (nth_error_nth adj p zero Ha), (nth_error_nth X p 0 Hx), (nth_error_nth B p 0 Hb) in M.
  eapply Rle_trans; [exact M|]. destruct (PB' p Hp) as [Bp _]. rewrite (nth_error_nth B p 0 Hb) in Bp.
  apply Rmult_le_compat_r; [exact Bp|]. pose proof (Rle_pow (1 + u) (budget g (n - p)) (3 * n) u1 (budget_le g (n - p) ltac:(fold n; lia))). lra.
Qed.
Print Assumptions gradient64_forward.

(** ** The operations keep the tape in order *)
Lemma wf64_push g p q a b v : wf64 g -> vok64 (length g) (Vertex64 p q a b) -> wf64 (fst (push64 g p q a b v)).
Proof.
  intros W V i w H. cbn [push64 fst] in H. destruct (Nat.lt_ge_cases i (length g)) as [L|L].
  - rewrite nth_error_app1 in H by exact L. apply W, H.
  - rewrite nth_error_app2 in H by exact L. destruct (i - length g)%nat as [|[|d]] eqn:D; cbn in H; try discriminate.
    injection H as <-. replace i with (length g) by lia. exact V.
Qed.
(** what an operation guarantees *)
Definition op_ok (g : tape64) (r : tape64 * var64) : Prop := wf64 (fst r) /\ (findex64 (snd r) < length (fst r))%nat /\ (length g <= length (fst r))%nat.
Lemma push64_ok g p q a b v : wf64 g -> vok64 (length g) (Vertex64 p q a b) -> op_ok g (push64 g p q a b v).
Proof. intros W V. split; [apply wf64_push; assumption|]. cbn. rewrite app_length. cbn. lia. Qed.
Lemma op_trans g g1 r : (length g <= length g1)%nat -> op_ok g1 r -> op_ok g r.
Proof. intros H (A & B & C). split; [exact A|]. split; [exact B|lia]. Qed.
Ltac vok := split; cbn [fq0 fq1 fp0 fp1]; first [left; lia | right; split; reflexivity].
Lemma run1_ok g vs i r : wf64 g -> (forall v, In v vs -> (findex64 v < length g)%nat) -> run1 g vs i = Ret r -> op_ok g r.
Proof.
  intros W I H.
  assert (G : forall k v, unwrap (nth_error vs k) = Ret v -> (findex64 v < length g)%nat).
  { intros k v E. apply I. destruct (nth_error vs k) as [w|] eqn:Ek; cbn in E; [|discriminate]. injection E as <-. apply (nth_error_In _ _ Ek). }
  assert (MF : forall x c, (findex64 x < length g)%nat -> op_ok g (mul_vf64 g x c)) by (intros x c Hx; apply push64_ok; [exact W|vok]).
  assert (AF : forall x c, (findex64 x < length g)%nat -> op_ok g (add_vf64 g x c)) by (intros x c Hx; apply push64_ok; [exact W|vok]).
  assert (RC : forall x, (findex64 x < length g)%nat -> op_ok g (recip_v64 g x)) by (intros x Hx; apply push64_ok; [exact W|vok]).
  destruct i as [c|k|k|k|o k l|o k c|o c l]; cbn [run1] in H.
  - injection H as <-. apply push64_ok; [exact W|vok].
  - destruct (unwrap (nth_error vs k)) as [x| |] eqn:Ex; cbn [bind] in H; try discriminate. apply G in Ex. injection H as <-. apply MF, Ex.
  - destruct (unwrap (nth_error vs k)) as [x| |] eqn:Ex; cbn [bind] in H; try discriminate. apply G in Ex. injection H as <-. apply RC, Ex.
  - destruct (unwrap (nth_error vs k)) as [x| |] eqn:Ex; cbn [bind] in H; try discriminate. apply G in Ex. injection H as <-. apply push64_ok; [exact W|vok].
  - destruct (unwrap (nth_error vs k)) as [x| |] eqn:Ex; cbn [bind] in H; try discriminate. apply G in Ex.
    destruct (unwrap (nth_error vs l)) as [y| |] eqn:Ey; cbn [bind] in H; try discriminate. apply G in Ey. injection H as <-. destruct o; cbn [vv64].
    + apply push64_ok; [exact W|vok].
    + unfold sub_vv64, neg_v64. destruct (MF y (fneg one) Ey) as (W1 & L1 & M1). destruct (mul_vf64 g y (fneg one)) as [g1 z]. cbn [fst snd] in *.
      apply (op_trans g g1); [exact M1|]. apply push64_ok; [exact W1|vok].
    + apply push64_ok; [exact W|vok].
    + unfold div_vv64. destruct (RC y Ey) as (W1 & L1 & M1). destruct (recip_v64 g y) as [g1 z]. cbn [fst snd] in *.
      apply (op_trans g g1); [exact M1|]. apply push64_ok; [exact W1|vok].
  - destruct (unwrap (nth_error vs k)) as [x| |] eqn:Ex; cbn [bind] in H; try discriminate. apply G in Ex. injection H as <-.
    destruct o; cbn [vf64]; (apply MF || apply AF); exact Ex.
  - destruct (unwrap (nth_error vs l)) as [x| |] eqn:Ex; cbn [bind] in H; try discriminate. apply G in Ex. injection H as <-.
    destruct o; cbn [fv64]; [apply AF, Ex| |apply MF, Ex|]; apply push64_ok; try exact W; vok.
Qed.
Lemma run64_ok : forall p g vs g' vs', wf64 g -> (forall v, In v vs -> (findex64 v < length g)%nat) -> run64 p g vs = Ret (g', vs') ->
  wf64 g' /\ (forall v, In v vs' -> (findex64 v < length g')%nat) /\ length vs' = (length vs + length p)%nat.
Proof.
  induction p as [|i p IH]; intros g vs g' vs' W I H; cbn [run64] in H.
  - injection H as <- <-. split; [exact W|]. split; [exact I|cbn; lia].
  - destruct (run1 g vs i) as [r| |] eqn:E; cbn [bind] in H; try discriminate. destruct (run1_ok g vs i r W I E) as (W1 & L1 & M1).
    apply IH in H; [|exact W1|].
    + destruct H as (A & B & C). split; [exact A|]. split; [exact B|]. rewrite app_length in C. cbn in *. lia.
    + intros v Hv. apply in_app_or in Hv. destruct Hv as [Hv|[<-|[]]]; [apply I in Hv; lia|exact L1].
Qed.
Theorem gradient64_total : forall p g vs out x, run64 p [] [] = Ret (g, vs) -> In out vs -> In x vs ->
  length vs = length p /\ wf64 g /\ exists adj d, accumulate64 g out = Ret adj /\ wrt64 adj x = Ret d.
Proof.
  intros p g vs out x H Ho Hx. destruct (run64_ok p [] [] g vs) as (W & I & L); [intros [|i] v; discriminate|intros v []|exact H|].
  split; [exact L|]. split; [exact W|]. destruct (accumulate64_fun g out W (I out Ho)) as (adj & E & La & _).
  exists adj, (nth (findex64 x) adj zero). split; [exact E|]. unfold wrt64. rewrite (nth_error_nth' adj zero) by (rewrite La; apply I, Hx). reflexivity.
Qed.
Print Assumptions gradient64_total.

(** a whole program: the gradient it reports is the exact gradient of a tape with perturbed partials *)
Theorem gradient64_program : forall p g vs out x d, run64 p [] [] = Ret (g, vs) -> In out vs -> In x vs ->
  forall adj, accumulate64 g out = Ret adj -> wrt64 adj x = Ret d -> Forall fin adj -> no_underflow g adj ->
  exists g' adj', perturbed g g' /\ (forall y, accumulate g' (Var y (findex64 out)) = Ret adj') /\ nth_error adj' (findex64 x) = Some (val d).
Proof.
  intros p g vs out x d H Ho Hx adj E Ed FA NU. destruct (gradient64_total p g vs out x H Ho Hx) as (_ & W & _).
  destruct (gradient64_backward g out adj W E FA NU) as (g' & P & A). exists g', (map val adj). split; [exact P|]. split; [exact A|].
  unfold wrt64 in Ed. destruct (nth_error adj (findex64 x)) as [w|] eqn:En; cbn in Ed; [|discriminate]. injection Ed as <-. apply map_nth_error, En.
Qed.
Print Assumptions gradient64_program.

(** ** Subtraction is exact subtraction; division is not division *)
Lemma fmul_neg_one y : fmul y (fneg one) = fneg y.
Proof.
  destruct y as [s|s| |s m e b]; try (destruct s; reflexivity); try reflexivity. set (z := B754_finite s m e b : f64).
  assert (Fz : fin z) by reflexivity.
  assert (V : val z * val (fneg one) = - val z) by (rewrite fneg_R, (proj2 one_R); ring).
  assert (RV : rnd (- val z) = - val z) by (apply rnd_id, fmt_opp, val_fmt).
  pose proof (Bmult_correct 53 1024 p53 pe53 mode_NE z (fneg one)) as M. change (B2R z) with (val z) in M. change (B2R (fneg one)) with (val (fneg one)) in M. rewrite V in M.
  change (round radix2 (SpecFloat.fexp 53 1024) (round_mode mode_NE) (- val z)) with (rnd (- val z)) in M. rewrite RV in M.
  rewrite Rlt_bool_true in M by (rewrite Rabs_Ropp; apply val_lt). destruct M as (M1 & M2 & M3).
  apply B2R_Bsign_inj.
  - exact M2.
  - apply fneg_fin, Fz.
  - etransitivity; [exact M1|]. symmetry. apply fneg_R.
  - etransitivity; [apply M3|reflexivity]. change (fmul z (fneg one)) with (Bmult mode_NE z (fneg one)). revert M2. cbn [andb is_finite]. fold z.
    match goal with |- is_finite ?q = _ -> _ => destruct q; cbn; try reflexivity; intros; discriminate end.
Qed.
Theorem subtraction64_exact : forall g x y, fvalue (snd (sub_vv64 g x y)) = fsub (fvalue x) (fvalue y) /\
  (forall c, fvalue (snd (sub_vf64 g x c)) = fsub (fvalue x) c) /\ fvalue (snd (neg_v64 g x)) = fneg (fvalue x).
Proof.
  assert (G : forall a b, fadd a (fneg b) = fsub a b) by (intros a b; destruct a, b; reflexivity).
  intros g x y. unfold sub_vv64, neg_v64, sub_vf64, add_vf64, add_vv64, mul_vf64, push64. cbn [fst snd fvalue]. rewrite !fmul_neg_one.
  split; [apply G|]. split; [intros c; apply G|reflexivity].
Qed.
Print Assumptions subtraction64_exact.
(** a quotient of two variables is two roundings away from the quotient *)
Theorem division64_error : forall g x y, let q := fvalue (snd (div_vv64 g x y)) in
  fin q -> fin (fvalue y) -> val (fvalue y) <> 0 -> safe (/ val (fvalue y)) -> safe (val (fvalue x) * val (fdiv one (fvalue y))) ->
  Rabs (val q - val (fvalue x) / val (fvalue y)) <= ((1 + u) ^ 2 - 1) * Rabs (val (fvalue x) / val (fvalue y)).
Proof.
  intros g x y q Fq Fy Ny S1 S2. change q with (fmul (fvalue x) (fdiv one (fvalue y))) in *. set (a := fvalue x) in *. set (b := fvalue y) in *.
  apply fmul_fin in Fq. destruct Fq as (Fa & Fd & V & _). rewrite V. apply fdiv_fin in Fd; [|exact Ny]. destruct Fd as (_ & Vd & _).
  rewrite (proj2 one_R) in Vd. replace (1 / val b) with (/ val b) in Vd by (unfold Rdiv; ring).
  assert (R : forall r, safe r -> exists e, rel 1 e /\ rnd r = r * (1 + e)).
  { intros r [Z|B]; [exists 0; split; [apply rel_0|rewrite Z, rnd_0; ring]|]. destruct (rnd_rel r B) as (e & Be & Ee). exists e. split; [apply rel_u, Be|exact Ee]. }
  destruct (R _ S2) as (e2 & B2 & E2). rewrite E2, Vd. destruct (R _ S1) as (e1 & B1 & E1). rewrite E1.
  replace (val a * (/ val b * (1 + e1)) * (1 + e2) - val a / val b) with (((1 + e1) * (1 + e2) - 1) * (val a / val b)) by (field; exact Ny).
  rewrite Rabs_mult. apply Rmult_le_compat_r; [apply Rabs_pos|]. apply (rel_mult 1 1 e1 e2 B1 B2).
Qed.
Print Assumptions division64_error.
(** a variable divided by itself need not be one, and can be infinite *)
Theorem division64_by_itself_refuted : exists x y, fin x /\ fin y /\ flt zero x = true /\ flt zero y = true /\
  feq (fdiv x x) one = true /\ feq (fdiv y y) one = true /\
  (forall g, flt (fvalue (snd (div_vv64 g (Var64 x (length g)) (Var64 x (length g))))) one = true) /\
  (forall g, fvalue (snd (div_vv64 g (Var64 y (length g)) (Var64 y (length g)))) = pinf).
Proof. exists (lit 49 0), (lit 1 (-1074)). repeat split; vm_compute; reflexivity. Qed.
Print Assumptions division64_by_itself_refuted.

(** ** Gradients at the leaves *)
Lemma leaf_update d : let r := fadd (fadd d (fmul zero d)) (fmul zero d) in fin r \/ r = nan.
Proof.
  cbv zeta. assert (Z : forall b, fin b -> fin (fmul zero b) /\ val (fmul zero b) = 0).
  { intros b Fb. destruct (fmul_R zero b eq_refl Fb) as [A B]; [change (val zero) with 0; rewrite Rmult_0_l, rnd_0, Rabs_R0; apply bpow_gt_0|].
    split; [exact A|]. rewrite B. change (val zero) with 0. rewrite Rmult_0_l. apply rnd_0. }
  assert (A : forall a b, fin a -> fin b -> val b = 0 -> fin (fadd a b)).
  { intros a b Fa Fb V. apply fadd_R; [exact Fa|exact Fb|]. rewrite V, Rplus_0_r, rnd_id by apply val_fmt. apply val_lt. }
  destruct (is_finite d) eqn:E.
  - left. destruct (Z d E) as [Z1 Z2]. apply A; [apply A| |]; assumption.
  - right. destruct d as [s|s| |s m e b]; try discriminate; [destruct s; reflexivity|reflexivity].
Qed.
Theorem leaf_gradient64 : forall g out adj x d, wf64 g -> accumulate64 g out = Ret adj ->
  nth_error g (findex64 x) = Some (Vertex64 zero zero (findex64 x) (findex64 x)) -> wrt64 adj x = Ret d -> fin d \/ d = nan.
Proof.
  intros g out adj x d W E V Hd. pose proof (accumulate64_index _ _ _ E) as Ho.
  assert (Hx : (findex64 x < length g)%nat) by (apply nth_error_Some; congruence).
  destruct (accumulate64_fun g out W Ho) as (l & El & L & N). assert (l = adj) by congruence. subst l.
  unfold wrt64 in Hd. destruct (nth_error adj (findex64 x)) as [w|] eqn:En; cbn in Hd; [|discriminate]. injection Hd as <-.
  rewrite <- (nth_error_nth adj _ zero En), N. rewrite (sweepf_read _ _ _ _ _ _ _ _ _ (wf64_le g (length g) W) Hx).
  unfold slot1, F0, F1, Q0, Q1, pz. rewrite (nth_error_nth g _ _ V). cbn [fp0 fp1 fq0 fq1]. rewrite Nat.eqb_refl. apply leaf_update.
Qed.
Print Assumptions leaf_gradient64.

Definition ran (p : list ins64) (o k : nat) : res f64 :=
  let! r := run64 p [] [] in let! out := unwrap (nth_error (snd r) o) in let! x := unwrap (nth_error (snd r) k) in
  let! adj := accumulate64 (fst r) out in wrt64 adj x.
(** a derivative beyond the largest binary64 number comes out as NaN, not as an infinity *)
Theorem overflowing_gradient_nan_refuted : exists p, ran p 2 0 = Ret nan /\
  (match run64 p [] [] with Ret (_, vs) => forallb (fun v => is_finite (fvalue v)) vs | _ => false end) = true.
Proof. exists [INew (lit 1 (-1000)); IVF OMul 0 (lit 1 600); IVF OMul 1 (lit 1 600)]. split; vm_compute; reflexivity. Qed.
Print Assumptions overflowing_gradient_nan_refuted.
(** a variable that the output does not use spoils the gradient: the third program line does not
    mention the second *)
Theorem unused_variable_gradient_refuted : exists a b, ran [INew a; b; IVF OAdd 0 one] 2 0 = Ret nan /\ (match ran [INew a; IVF OAdd 0 one] 1 0 with Ret d => feq d one | _ => false end) = true /\
  (match run64 [INew a; b; IVF OAdd 0 one] [] [] with Ret (_, vs) => forallb (fun v => is_finite (fvalue v)) vs | _ => false end) = true.
Proof. exists zero, (ISqrt 0). repeat split; vm_compute; reflexivity. Qed.
Print Assumptions unused_variable_gradient_refuted.

(** ** The hypotheses are met: x y + x / y at (3, 7) *)
Definition demo64 : list ins64 := [INew (lit 3 0); INew (lit 7 0); IVV OMul 0 1; IVV ODiv 0 1; IVV OAdd 2 3].
Definition demo_run : tape64 * list var64 := match run64 demo64 [] [] with Ret r => r | _ => ([], []) end.
Definition demo_out : var64 := nth 4 (snd demo_run) (Var64 zero 0).
Definition demo_adj : list f64 := match accumulate64 (fst demo_run) demo_out with Ret l => l | _ => [] end.
(** the exponent of a number that is not too small *)
Definition safe64 (a b : f64) : bool := feq a zero || feq b zero || (fle (lit 1 (-400)) (Babs a) && fle (lit 1 (-400)) (Babs b)).
Lemma safe64_ok a b : fin a -> fin b -> safe64 a b = true -> safe (val a * val b).
Proof.
  unfold safe64. intros Fa Fb H. apply orb_true_iff in H. destruct H as [H|H].
  - apply orb_true_iff in H. left. destruct H as [H|H]; rewrite (nz_0 _ H); ring.
  - apply andb_true_iff in H. destruct H as [A B]. right.
    assert (L : fin (lit 1 (-400)) /\ val (lit 1 (-400)) = bpow radix2 (-400)).
    { assert (Q : rnd (IZR 1 * bpow radix2 (-400)) = bpow radix2 (-400)).
      { rewrite Rmult_1_l. apply rnd_id. apply generic_format_bpow. cbn. lia. }
      destruct (lit_R 1 (-400)) as [P R]; [rewrite Q, Rabs_pos_eq by apply bpow_ge_0; apply bpow_lt; lia|]. split; [exact P|rewrite R; exact Q]. }
    destruct L as [FL VL].
    apply fle_R in A; [|exact FL|unfold fin; rewrite is_finite_Babs; exact Fa]. apply fle_R in B; [|exact FL|unfold fin; rewrite is_finite_Babs; exact Fb].
    rewrite VL in A, B. assert (EA : forall c, val (Babs c) = Rabs (val c)) by (intros c; apply B2R_Babs). rewrite EA in A, B.
    rewrite Rabs_mult. apply Rle_trans with (bpow radix2 (-400) * bpow radix2 (-400)); [rewrite <- bpow_plus; apply bpow_le; lia|].
    apply Rmult_le_compat; try apply bpow_ge_0; assumption.
Qed.
Definition checks (g : tape64) (adj : list f64) : bool :=
  forallb is_finite adj && forallb (fun v => is_finite (fp0 v) && is_finite (fp1 v)) g &&
  forallb (fun i => match nth_error g i, nth_error adj i with Some v, Some a => safe64 (fp0 v) a && safe64 (fp1 v) a | _, _ => true end) (seq 0 (length g)).
Lemma checks_ok g adj : checks g adj = true -> Forall fin adj /\ no_underflow g adj.
Proof.
  unfold checks. intros H. apply andb_true_iff in H. destruct H as [H S]. apply andb_true_iff in H. destruct H as [A G].
  rewrite forallb_forall in A, G, S. split; [apply Forall_forall; exact A|].
  intros i v a Hv Ha. assert (Li : (i < length g)%nat) by (apply nth_error_Some; congruence).
  specialize (S i ltac:(apply in_seq; lia)). rewrite Hv, Ha in S. apply andb_true_iff in S. destruct S as [S0 S1].
  pose proof (G v (nth_error_In _ _ Hv)) as Gv. apply andb_true_iff in Gv. destruct Gv as [G0 G1]. pose proof (A a (nth_error_In _ _ Ha)) as Fa.
  split; apply safe64_ok; assumption.
Qed.
Lemma is_ret {A} (d : A) (r : res A) : match r with Ret _ => true | _ => false end = true -> r = Ret (match r with Ret a => a | _ => d end).
Proof. destruct r; [reflexivity|discriminate|discriminate]. Qed.
Lemma demo_runs : run64 demo64 [] [] = Ret demo_run.
Proof. apply (is_ret ([], [])). vm_compute. reflexivity. Qed.
Lemma demo_runs' : run64 demo64 [] [] = Ret (fst demo_run, snd demo_run).
Proof. rewrite demo_runs. destruct demo_run. reflexivity. Qed.
Lemma demo_accumulates : accumulate64 (fst demo_run) demo_out = Ret demo_adj.
Proof. apply (is_ret []). vm_compute. reflexivity. Qed.
Example demo64_meets : exists g vs, run64 demo64 [] [] = Ret (g, vs) /\ g = fst demo_run /\ In demo_out vs /\ In (nth 0 vs demo_out) vs /\ In (nth 1 vs demo_out) vs /\
  accumulate64 g demo_out = Ret demo_adj /\ Forall fin demo_adj /\ no_underflow g demo_adj /\ length g = 6%nat /\ map (uses g) [0; 1; 2; 3; 4]%nat = [2; 2; 1; 1; 1]%nat.
Proof.
  exists (fst demo_run), (snd demo_run). split; [exact demo_runs'|]. split; [reflexivity|]. split; [apply nth_In; vm_compute; repeat constructor|]. split; [apply nth_In; vm_compute; repeat constructor|]. split; [apply nth_In; vm_compute; repeat constructor|].
  split; [exact demo_accumulates|]. assert (C : checks (fst demo_run) demo_adj = true) by (vm_compute; reflexivity).
  destruct (checks_ok _ _ C) as [A B]. split; [exact A|]. split; [exact B|]. split; vm_compute; reflexivity.
Qed.
(** its gradient is (7 + 1/7, 3 - 3/49), rounded *)
Example demo64_gradient : match ran demo64 4 0, ran demo64 4 1 with
  | Ret a, Ret b => fle (fabs (fsub a (fadd (lit 7 0) (fdiv one (lit 7 0))))) (lit 1 (-49)) && fle (fabs (fsub b (fsub (lit 3 0) (fdiv (lit 3 0) (lit 49 0))))) (lit 1 (-49))
  | _, _ => false end = true.
Proof. vm_compute. reflexivity. Qed.
Example division64_meets : let g := [] in let x := Var64 (lit 3 0) 0 in let y := Var64 (lit 7 0) 1 in
  fin (fvalue (snd (div_vv64 g x y))) /\ fin (fvalue y) /\ val (fvalue y) <> 0 /\ safe (/ val (fvalue y)) /\ safe (val (fvalue x) * val (fdiv one (fvalue y))).
Proof.
  cbv zeta. cbn [fvalue]. destruct (int_lit 7 ltac:(cbn; lia)) as [F7 V7]. split; [vm_compute; reflexivity|]. split; [exact F7|]. rewrite V7.
  split; [lra|]. split.
  - right. rewrite Rabs_pos_eq by lra. apply Rle_trans with (bpow radix2 (-3)); [apply bpow_le; lia|cbn; lra].
  - apply safe64_ok; vm_compute; reflexivity.
Qed.
Example leaf_gradient64_meets : exists g vs, run64 demo64 [] [] = Ret (g, vs) /\ wf64 g /\
  nth_error g (findex64 (nth 1 vs demo_out)) = Some (Vertex64 zero zero (findex64 (nth 1 vs demo_out)) (findex64 (nth 1 vs demo_out))).
Proof.
  exists (fst demo_run), (snd demo_run). pose proof demo_runs' as E. split; [exact E|]. split.
  - apply (gradient64_total demo64 (fst demo_run) (snd demo_run) demo_out demo_out E); apply nth_In; vm_compute; repeat constructor.
  - vm_compute. reflexivity.
Qed.
