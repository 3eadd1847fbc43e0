(** C107, continued: how accurately the explicit pricer computes its grid and weights. *)
From Coq Require Import ZArith Reals Lra Lia List Bool Psatz.
From Flocq Require Import Core.Core IEEE754.BinarySingleNaN Relative.
From Verif Require Import Res DateModel PayoffModel FdModel FdProofs FdProps F64Model F64Base F64Order F64RootModel F64Root F64QuadModel F64Quad F64Sim F64PayModel F64Pay F64Day F64FdModel F64Fd.
Import ListNotations.
Open Scope R_scope.

(** ** Two-sided relative errors of positive quantities *)
Definition bb : R := 1 + 2 * u.
Lemma bb_1 : 1 < bb. Proof. unfold bb. pose proof u_pos. lra. Qed.
Lemma bb_pow k : 1 <= bb ^ k. Proof. apply pow_R1_Rle. pose proof bb_1. lra. Qed.
Lemma bb_mono k j : (k <= j)%nat -> bb ^ k <= bb ^ j. Proof. intros H. apply Rle_pow; [pose proof bb_1; lra|exact H]. Qed.
Definition within (k : nat) (x X : R) : Prop := 0 < X /\ X <= x * bb ^ k /\ x <= X * bb ^ k.
Lemma within_pos k x X : within k x X -> 0 < x.
Proof. intros (P & A & _). pose proof (bb_pow k). destruct (Rle_lt_dec x 0) as [N|N]; [|exact N]. assert (x * bb ^ k <= 0) by nra. lra. Qed.
Lemma within_refl x : 0 < x -> within 0 x x. Proof. intros P. unfold within. cbn. lra. Qed.
Lemma within_weak k j x X : (k <= j)%nat -> within k x X -> within j x X.
Proof. intros L H. pose proof (within_pos k x X H) as P. destruct H as (P0 & A & B). pose proof (bb_mono k j L). split; [exact P0|]. split; nra. Qed.
Lemma within_mul k j x X y Y : within k x X -> within j y Y -> within (k + j) (x * y) (X * Y).
Proof.
  intros H1 H2. pose proof (within_pos _ _ _ H1) as Px. pose proof (within_pos _ _ _ H2) as Py. destruct H1 as (P1 & A1 & B1), H2 as (P2 & A2 & B2). pose proof (bb_pow k). pose proof (bb_pow j). unfold within. rewrite pow_add.
  split; [nra|]. split.
  - replace (x * y * (bb ^ k * bb ^ j)) with ((x * bb ^ k) * (y * bb ^ j)) by ring. apply Rmult_le_compat; lra.
  - replace (X * Y * (bb ^ k * bb ^ j)) with ((X * bb ^ k) * (Y * bb ^ j)) by ring. apply Rmult_le_compat; lra.
Qed.
Lemma within_inv k x X : within k x X -> within k (/ x) (/ X).
Proof.
  intros H. pose proof (within_pos _ _ _ H) as P. destruct H as (P0 & A & B). pose proof (bb_pow k) as Q. split; [apply Rinv_0_lt_compat, P0|]. split.
  - apply Rmult_le_reg_l with (x * X); [nra|]. replace (x * X * / X) with x by (field; lra). replace (x * X * (/ x * bb ^ k)) with (X * bb ^ k) by (field; lra). exact B.
  - apply Rmult_le_reg_l with (x * X); [nra|]. replace (x * X * / x) with X by (field; lra). replace (x * X * (/ X * bb ^ k)) with (x * bb ^ k) by (field; lra). exact A.
Qed.
Lemma within_sqrt k x X : within k x X -> within k (sqrt x) (sqrt X).
Proof.
  intros H. pose proof (within_pos _ _ _ H) as P. destruct H as (P0 & A & B). pose proof (bb_pow k) as Q. assert (S0 : sqrt (bb ^ k) <= bb ^ k). { rewrite <- (sqrt_Rsqr (bb ^ k)) at 2 by lra. apply sqrt_le_1_alt. unfold Rsqr. nra. }
  split; [apply sqrt_lt_R0, P0|]. pose proof (sqrt_pos x). pose proof (sqrt_pos X). split.
  - apply Rle_trans with (sqrt (x * bb ^ k)); [apply sqrt_le_1_alt, A|]. rewrite sqrt_mult by lra. apply Rmult_le_compat_l; assumption.
  - apply Rle_trans with (sqrt (X * bb ^ k)); [apply sqrt_le_1_alt, B|]. rewrite sqrt_mult by lra. apply Rmult_le_compat_l; assumption.
Qed.
Lemma bb_lin k : INR k * u <= / 100 -> bb ^ k <= 1 + 3 * INR k * u.
Proof.
  intros H. pose proof u_pos as U. unfold bb. eapply Rle_trans; [apply pow_linear; [lra|]|]; [lra|]. pose proof (pos_INR k). nra.
Qed.
Lemma within_abs k x X : within k x X -> INR k * u <= / 100 -> Rabs (x - X) <= 4 * INR k * u * X /\ X / 2 <= x <= 2 * X.
Proof.
  intros (P & A & B) H. pose proof (bb_lin k H) as L. pose proof (bb_pow k) as Q. pose proof u_pos as U. pose proof (pos_INR k) as K. set (t := INR k * u) in *. assert (T0 : 0 <= t) by (unfold t; nra). replace (3 * INR k * u) with (3 * t) in L by (unfold t; ring). replace (4 * INR k * u) with (4 * t) by (unfold t; ring). set (q := bb ^ k) in *. clearbody q t.
  assert (X0 : 0 <= x) by (destruct (Rle_lt_dec 0 x); [assumption|nra]). assert (x <= X * (1 + 3 * t)) by nra. assert (X <= x * (1 + 3 * t)) by nra. assert (x <= 2 * X) by nra. split; [|nra]. apply Rabs_le. nra.
Qed.
Lemma within_rnd k x X : bpow radix2 (-1000) <= x -> within k x X -> within (S k) (rnd x) X.
Proof.
  intros L H. pose proof (within_pos _ _ _ H) as P. destruct H as (P0 & A & B). pose proof u_pos as U. pose proof u_tiny as U1. pose proof (bb_pow k) as Q.
  destruct (relative_error_N_FLT_ex radix2 (-1074) 53 eq_refl (fun z => negb (Z.even z)) x) as (e & E & R).
  { rewrite Rabs_pos_eq by lra. apply Rle_trans with (2 := L). apply bpow_le. lia. }
  change (rnd x = x * (1 + e)) in R. assert (E' : Rabs e <= u). { eapply Rle_trans; [exact E|]. right. rewrite <- u_ro_u. reflexivity. } apply Rabs_le_inv in E'. rewrite R. unfold within. cbn [pow].
  split; [exact P0|]. split.
  - apply Rle_trans with (1 := A). replace (x * (1 + e) * (bb * bb ^ k)) with (x * bb ^ k * ((1 + e) * bb)) by ring. assert (1 <= (1 + e) * bb) by (unfold bb; nra). assert (0 <= x * bb ^ k) by nra. nra.
  - apply Rle_trans with (x * bb); [unfold bb; nra|]. replace (X * (bb * bb ^ k)) with (X * bb ^ k * bb) by ring. apply Rmult_le_compat_r; [pose proof bb_1; lra|exact B].
Qed.

(** a finite double within [bb ^ k] of a positive real between [2 ^ -a] and [2 ^ a] *)
Definition ap (k : nat) (a : Z) (x : f64) (X : R) : Prop := fin x /\ within k (val x) X /\ bpow radix2 (- a) <= X <= bpow radix2 a.
Definition few (k : nat) : Prop := INR k * u <= / 100.
Lemma few_le k j : (k <= j)%nat -> few j -> few k.
Proof. unfold few. intros L H. apply le_INR in L. pose proof u_pos. nra. Qed.
Lemma ap_rnd k a z Z : few k -> (0 <= a <= 900)%Z -> within k z Z -> bpow radix2 (- a) <= Z <= bpow radix2 a -> within (S k) (rnd z) Z /\ Rabs (rnd z) < fmaxR.
Proof.
  intros FK Ha H B. destruct (within_abs k z Z H FK) as [_ C]. pose proof (bpow_gt_0 radix2 (- a)) as P.
  assert (L : bpow radix2 (-1000) <= z). { apply Rle_trans with (bpow radix2 (- a) / 2); [|lra]. replace (bpow radix2 (- a) / 2) with (bpow radix2 (- a - 1)); [apply bpow_le; lia|]. rewrite <- (Z.sub_add 1 (- a)) at 2. rewrite dbl_bpow. field. }
  split; [apply within_rnd; assumption|]. apply (rnd_cap (a + 1) z); [lia|]. rewrite dbl_bpow, Rabs_pos_eq; lra.
Qed.
Lemma rng_mul a b X Y : bpow radix2 (- a) <= X <= bpow radix2 a -> bpow radix2 (- b) <= Y <= bpow radix2 b -> bpow radix2 (- (a + b)) <= X * Y <= bpow radix2 (a + b).
Proof.
  intros A B. pose proof (bpow_gt_0 radix2 (- a)). pose proof (bpow_gt_0 radix2 (- b)). replace (- (a + b))%Z with (- a + - b)%Z by lia. rewrite !bpow_plus. split; apply Rmult_le_compat; lra.
Qed.
Lemma rng_inv a X : bpow radix2 (- a) <= X <= bpow radix2 a -> bpow radix2 (- a) <= / X <= bpow radix2 a.
Proof.
  intros A. pose proof (bpow_gt_0 radix2 (- a)) as P. split.
  - rewrite bpow_opp. apply Rinv_le_contravar; lra.
  - rewrite <- (Z.opp_involutive a), bpow_opp. apply Rinv_le_contravar; lra.
Qed.
Lemma ap_mul k a x X j b y Y : ap k a x X -> ap j b y Y -> few (k + j) -> (0 <= a + b <= 900)%Z -> ap (S (k + j)) (a + b) (fmul x y) (X * Y).
Proof.
  intros (F1 & W1 & R1) (F2 & W2 & R2) FK Hab. pose proof (within_mul _ _ _ _ _ _ W1 W2) as W. pose proof (rng_mul _ _ _ _ R1 R2) as R. destruct (ap_rnd _ _ _ _ FK Hab W R) as [WR C].
  destruct (fmul_R x y F1 F2 C) as [F V]. split; [exact F|]. rewrite V. split; assumption.
Qed.
Lemma ap_div k a x X j b y Y : ap k a x X -> ap j b y Y -> few (k + j) -> (0 <= a + b <= 900)%Z -> ap (S (k + j)) (a + b) (fdiv x y) (X / Y).
Proof.
  intros (F1 & W1 & R1) (F2 & W2 & R2) FK Hab. pose proof (within_mul _ _ _ _ _ _ W1 (within_inv _ _ _ W2)) as W. pose proof (rng_mul _ _ _ _ R1 (rng_inv _ _ R2)) as R. destruct (ap_rnd _ _ _ _ FK Hab W R) as [WR C].
  destruct (fdiv_R x y F1 (Rgt_not_eq _ _ (within_pos _ _ _ W2)) C) as [F V]. split; [exact F|]. rewrite V. split; assumption.
Qed.
Lemma fsqrt_R x : fin x -> 0 < val x -> fin (fsqrt x) /\ val (fsqrt x) = rnd (sqrt (val x)).
Proof.
  intros X P. destruct (Bsqrt_correct 53 1024 p53 pe53 mode_NE x) as (V & Fi & _). split; [|exact V]. unfold fin, fsqrt. rewrite Fi. destruct x as [s|s| |s m e H]; try discriminate; try reflexivity. destruct s; [|reflexivity]. exfalso. apply (Rlt_not_le _ _ P). apply Rlt_le. apply F2R_lt_0. reflexivity.
Qed.
Lemma ap_sqrt k a x X : ap k a x X -> few k -> (0 <= a <= 900)%Z -> ap (S k) a (fsqrt x) (sqrt X).
Proof.
  intros (F1 & W1 & R1) FK Ha. pose proof (within_sqrt _ _ _ W1) as W. pose proof (bpow_gt_0 radix2 (- a)) as P. pose proof (bpow_le radix2 0 a ltac:(lia)) as B1. change (bpow radix2 0) with 1 in B1. pose proof (bpow_le radix2 (- a) 0 ltac:(lia)) as B2. change (bpow radix2 0) with 1 in B2.
  assert (R : bpow radix2 (- a) <= sqrt X <= bpow radix2 a).
  { split.
    - rewrite <- (sqrt_Rsqr (bpow radix2 (- a))) by lra. apply sqrt_le_1_alt. unfold Rsqr. nra.
    - rewrite <- (sqrt_Rsqr (bpow radix2 a)) by lra. apply sqrt_le_1_alt. unfold Rsqr. nra. }
  destruct (ap_rnd _ _ _ _ FK Ha W R) as [WR C]. destruct (fsqrt_R x F1 (within_pos _ _ _ W1)) as [F V]. split; [exact F|]. rewrite V. split; assumption.
Qed.
Lemma ap_exact x a : fin x -> bpow radix2 (- a) <= val x <= bpow radix2 a -> ap 0 a x (val x).
Proof. intros F B. split; [exact F|]. split; [|exact B]. apply within_refl. pose proof (bpow_gt_0 radix2 (- a)). lra. Qed.
Lemma ap_weak k a b x X : (a <= b)%Z -> ap k a x X -> ap k b x X.
Proof. intros L (F & W & R). split; [exact F|]. split; [exact W|]. pose proof (bpow_le radix2 (- b) (- a) ltac:(lia)). pose proof (bpow_le radix2 a b L). lra. Qed.

(** ** The grid *)
(** the exact pricer with the same parameters *)
Definition exactR (g : fd64) : fd := Fd (val (h_s g)) (val (h_k g)) (val (h_r g)) (val (h_v g)) (val (h_T g)) (h_nt g) (h_np g) (h_tf g) (h_ex g).
(** volatility and time to expiry are not extreme; the step counts are [u32] *)
Record ranged (g : fd64) : Prop := {
  rg_fin : fin (h_s g) /\ fin (h_k g) /\ fin (h_r g) /\ fin (h_v g) /\ fin (h_T g);
  rg_s : 0 < val (h_s g); rg_k : 0 < val (h_k g);
  rg_r : 0 < val (h_r g) <= bpow radix2 100;
  rg_v : bpow radix2 (-100) <= val (h_v g) <= bpow radix2 100;
  rg_T : bpow radix2 (-100) <= val (h_T g) <= bpow radix2 100;
  rg_nt : (1 <= Z.of_nat (h_nt g) <= 2 ^ 32)%Z;
  rg_np : (3 <= Z.of_nat (h_np g) <= 2 ^ 32)%Z
}.
Definition width (g : fd64) : R := 5 * val (h_v g) * sqrt (val (h_T g)).
Lemma ap_count n : (1 <= Z.of_nat n <= 2 ^ 32)%Z -> ap 0 32 (of_usize n) (INR n).
Proof.
  intros H. destruct (usize_R n) as [F V]; [unfold small; lia|]. rewrite <- V. apply ap_exact; [exact F|]. rewrite V, INR_IZR_INZ. split.
  - apply Rle_trans with 1; [change 1 with (bpow radix2 0); apply bpow_le; lia|]. apply (IZR_le 1). lia.
  - change (bpow radix2 32) with (IZR (2 ^ 32)). apply IZR_le. lia.
Qed.
Lemma exact_valid g : ranged g -> fd_valid (exactR g).
Proof.
  intros [_ S K R V T NT NP]. pose proof (bpow_gt_0 radix2 (-100)). unfold fd_valid, exactR. cbn [f_s f_k f_r f_v f_T f_nt f_np]. repeat split; try lra; lia.
Qed.
Lemma few_small k : (k <= 100)%nat -> few k.
Proof. intros H. unfold few. apply le_INR in H. pose proof u_pos. pose proof u_tiny. assert (INR 100 = 100) by (rewrite INR_IZR_INZ; reflexivity). nra. Qed.

Lemma quot_err d y A Q R s al : 0 < d -> 0 < y -> 0 <= s <= 1 -> Rabs (d / y - R) <= s * R -> Rabs (A - Q) <= al ->
  Rabs (rnd (rnd (d * A) / y) - R * Q) <= 2 * R * al + s * (R * Rabs Q) + 6 * u * (R * Rabs Q + R * al) + 2 * (eta / y) + eta.
Proof.
  intros D Y S H HA. set (rho := d / y). assert (RP : 0 < rho) by (unfold rho; apply Rdiv_lt_0_compat; lra). assert (YI : 0 < / y) by (apply Rinv_0_lt_compat; lra).
  fold rho in H. assert (R0 : 0 <= R) by (apply Rabs_le_inv in H; nra). assert (R2 : rho <= 2 * R) by (apply Rabs_le_inv in H; nra).
  pose proof u_pos as U0. pose proof u_tiny as U1. pose proof eta_pos as E0. pose proof (Rabs_pos Q) as Q0. assert (AL : 0 <= al) by (pose proof (Rabs_pos (A - Q)); lra).
  assert (AB : Rabs A <= Rabs Q + al). { replace A with (Q + (A - Q)) by ring. eapply Rle_trans; [apply Rabs_triang|]. lra. }
  set (z := rnd (d * A)). assert (HZ : Rabs (z / y - rho * A) <= u * (rho * Rabs A) + eta / y).
  { replace (z / y - rho * A) with ((z - d * A) * / y) by (unfold rho; field; lra). rewrite Rabs_mult, (Rabs_pos_eq (/ y)) by lra. apply Rle_trans with ((u * Rabs (d * A) + eta) * / y); [apply Rmult_le_compat_r; [lra|apply rnd_abs_err]|]. rewrite Rabs_mult, (Rabs_pos_eq d) by lra. right. unfold rho. field. lra. }
  assert (ZB : Rabs (z / y) <= (1 + u) * (rho * Rabs A) + eta / y). { replace (z / y) with (rho * A + (z / y - rho * A)) by ring. eapply Rle_trans; [apply Rabs_triang|]. rewrite Rabs_mult, (Rabs_pos_eq rho) by lra. lra. }
  pose proof (rnd_abs_err (z / y)) as HC. set (C := rnd (z / y)) in *.
  assert (HP : Rabs (rho * A - R * Q) <= 2 * R * al + s * (R * Rabs Q)). { replace (rho * A - R * Q) with (rho * (A - Q) + (rho - R) * Q) by ring. eapply Rle_trans; [apply Rabs_triang|]. rewrite !Rabs_mult, (Rabs_pos_eq rho) by lra. apply Rplus_le_compat; [apply Rmult_le_compat; try lra; apply Rabs_pos|]. rewrite <- Rmult_assoc. apply Rmult_le_compat_r; assumption. }
  assert (EY : 0 <= eta / y) by (unfold Rdiv; nra). set (ey := eta / y) in *. set (ra := rho * Rabs A) in *.
  assert (RA0 : 0 <= ra) by (unfold ra; pose proof (Rabs_pos A); nra). assert (RA : ra <= 2 * (R * Rabs Q + R * al)) by (unfold ra; pose proof (Rabs_pos A); apply Rle_trans with (2 * R * (Rabs Q + al)); [apply Rmult_le_compat; lra|lra]).
  replace (C - R * Q) with ((C - z / y) + ((z / y - rho * A) + (rho * A - R * Q))) by ring. eapply Rle_trans; [apply Rabs_triang|]. pose proof (Rabs_triang (z / y - rho * A) (rho * A - R * Q)) as T.
  assert (u * Rabs (z / y) <= u * ((1 + u) * ra + ey)) by (apply Rmult_le_compat_l; lra). clearbody ra ey. assert (W0 : 0 <= u * ra) by (apply Rmult_le_pos; lra). assert (W1 : u * (u * ra) <= 1 * (u * ra)) by (apply Rmult_le_compat_r; lra). assert (W2 : u * ey <= 1 * ey) by (apply Rmult_le_compat_r; lra). assert (u * ra <= u * (2 * (R * Rabs Q + R * al))) by (apply Rmult_le_compat_l; lra). lra.
Qed.

Section Grid64.
  Variable ln64 : f64 -> f64.
  Variable g : fd64.
  Variable K : nat.
  Hypothesis RG : ranged g.
  Let m := exactR g.
  Hypothesis LF : fin (ln64 (h_s g)).
  Hypothesis LB : Rabs (val (ln64 (h_s g))) <= INR K * width g.
  Hypothesis FK : few (4 * K + 18).

  Lemma ap_v : ap 0 100 (h_v g) (val (h_v g)). Proof. apply ap_exact; apply RG. Qed.
  Lemma ap_T : ap 0 100 (h_T g) (val (h_T g)). Proof. apply ap_exact; apply RG. Qed.
  Lemma ap_five : ap 0 3 five 5.
  Proof. destruct (int_lit 5 ltac:(cbn; lia)) as [F V]. rewrite <- V. apply ap_exact; [exact F|]. rewrite V. change (bpow radix2 (- (3))) with (/ 8). change (bpow radix2 3) with 8. lra. Qed.
  Lemma ap_two : ap 0 1 two 2.
  Proof. destruct two_R as [F V]. rewrite <- V. apply ap_exact; [exact F|]. rewrite V. change (bpow radix2 (- (1))) with (/ 2). change (bpow radix2 1) with 2. lra. Qed.
  Lemma ap_half : ap 0 1 half64 (/ 2).
  Proof. destruct (entry_R 1 (-1) ltac:(lia) ltac:(lia)) as [F V]. change (entry (1, -1)%Z) with half64 in F, V. change (bpow radix2 (-1)) with (/ 2) in V. rewrite Rmult_1_l in V. rewrite <- V. apply ap_exact; [exact F|]. rewrite V. change (bpow radix2 (- (1))) with (/ 2). change (bpow radix2 1) with 2. lra. Qed.
  Lemma ap_dt : ap 1 132 (fdt g) (dt m).
  Proof. unfold fdt, dt, m. cbn [f_T f_nt exactR]. apply (ap_div 0 100 _ _ 0 32 _ _ ap_T (ap_count _ (rg_nt g RG))); [apply few_small; lia|lia]. Qed.
  Lemma ap_hw : ap 3 203 (half_width g) (width g).
  Proof.
    unfold half_width, width. apply (ap_mul 1 103 _ _ 1 100 _ _); [|apply (ap_sqrt 0 100 _ _ ap_T)|apply few_small; lia|lia]; [|apply few_small; lia|lia].
    apply (ap_mul 0 3 _ _ 0 100 _ _ ap_five ap_v); [apply few_small; lia|lia].
  Qed.
  Lemma K_u : (4 * INR K + 18) * u <= / 100.
  Proof. unfold few in FK. rewrite plus_INR, mult_INR in FK. replace (INR 4) with 4 in FK by (cbn; lra). replace (INR 18) with 18 in FK by (cbn; lra). exact FK. Qed.
  Lemma few_K k : (k <= 4 * K + 18)%nat -> few k. Proof. intros H. apply (few_le k _ H FK). Qed.
  (** the ends of the grid *)
  Lemma ends64 : let l := val (ln64 (h_s g)) in let h := val (half_width g) in
    fin (x_min64 ln64 g) /\ fin (x_max64 ln64 g) /\ Rabs (val (x_min64 ln64 g) - (l - h)) <= u * Rabs (l - h) /\ Rabs (val (x_max64 ln64 g) - (l + h)) <= u * Rabs (l + h) /\
    Rabs l <= 2 * INR K * h /\ 0 < h /\ h <= 2 * width g /\ Rabs (h - width g) <= 12 * u * width g /\ (2 * INR K + 1) * h <= bpow radix2 300.
  Proof.
    intros l h. destruct ap_hw as (FH & WH & RH). destruct (within_abs 3 _ _ WH (few_small 3 ltac:(lia))) as [AH BH]. fold h in AH, BH. replace (INR 3) with 3 in AH by (cbn; lra).
    pose proof (within_pos _ _ _ WH) as PH. fold h in PH. pose proof (pos_INR K) as K0. pose proof K_u as KU. pose proof u_pos as U0.
    assert (LH : Rabs l <= 2 * INR K * h) by (unfold l; nra).
    assert (KB : 2 * INR K + 1 <= bpow radix2 53). { change (bpow radix2 53) with (IZR (2 ^ 53)). assert (UU : u * IZR (2 ^ 53) = 1) by (unfold u; apply Rinv_l; apply Rgt_not_eq, IZR_lt; reflexivity). set (z := IZR (2 ^ 53)) in *. assert (Z1 : 1 <= z) by (apply (IZR_le 1); lia). clearbody z. nra. }
    assert (HB : h <= bpow radix2 204) by (replace 204%Z with (203 + 1)%Z by lia; rewrite dbl_bpow; lra).
    assert (BIG : (2 * INR K + 1) * h <= bpow radix2 300). { apply Rle_trans with (bpow radix2 53 * bpow radix2 204); [apply Rmult_le_compat; lra|]. rewrite <- bpow_plus. apply bpow_le. lia. }
    pose proof (Rabs_triang l h) as T1. pose proof (Rabs_triang l (- h)) as T2. rewrite Rabs_Ropp in T2. rewrite (Rabs_pos_eq h) in T1, T2 by lra.
    destruct (rnd_cap 300 (l - h) ltac:(lia)) as [_ C1]; [unfold Rminus; lra|]. destruct (rnd_cap 300 (l + h) ltac:(lia)) as [_ C2]; [lra|].
    destruct (fsub_R _ _ LF FH C1) as [F1 V1]. destruct (fadd_R _ _ LF FH C2) as [F2 V2]. fold (x_min64 ln64 g) in F1, V1. fold (x_max64 ln64 g) in F2, V2. fold l h in V1, V2.
    split; [exact F1|]. split; [exact F2|]. rewrite V1, V2. split; [|split; [apply rnd_sum_err; apply val_fmt|]].
    - apply (rnd_sum_err l (- h)); [apply val_fmt|apply fmt_opp, val_fmt].
    - split; [exact LH|]. split; [exact PH|]. split; [lra|]. split; [lra|exact BIG].
  Qed.
  Lemma ap_dx : ap (2 * K + 6) 236 (fdx ln64 g) (dx m).
  Proof.
    destruct ends64 as (F1 & F2 & Q1 & Q2 & LH & PH & HB & HE & BIG). set (l := val (ln64 (h_s g))) in *. set (h := val (half_width g)) in *. destruct ap_hw as (FH & WH & RH). fold h in WH.
    pose proof (pos_INR K) as K0. pose proof K_u as KU. pose proof u_pos as U0. pose proof u_tiny as U1.
    pose proof (Rabs_triang l h) as T1. pose proof (Rabs_triang l (- h)) as T2. rewrite Rabs_Ropp in T2. rewrite (Rabs_pos_eq h) in T1, T2 by lra. change (l + - h) with (l - h) in T2.
    set (D := val (x_max64 ln64 g) - val (x_min64 ln64 g)).
    assert (DE : Rabs (D - 2 * h) <= 2 * h * ((2 * INR K + 1) * u)).
    { replace (D - 2 * h) with ((val (x_max64 ln64 g) - (l + h)) - (val (x_min64 ln64 g) - (l - h))) by (unfold D; ring). unfold Rminus at 1. eapply Rle_trans; [apply Rabs_triang|]. rewrite Rabs_Ropp.
      assert (u * Rabs (l + h) <= u * ((2 * INR K + 1) * h)) by (apply Rmult_le_compat_l; lra). assert (u * Rabs (l - h) <= u * ((2 * INR K + 1) * h)) by (apply Rmult_le_compat_l; lra). lra. }
    assert (NN : INR (2 * K + 1) = 2 * INR K + 1) by (rewrite plus_INR, mult_INR; cbn; ring).
    assert (BP : 1 + 2 * ((2 * INR K + 1) * u) <= bb ^ (2 * K + 1)). { unfold bb. rewrite <- NN. replace (2 * (INR (2 * K + 1) * u)) with (INR (2 * K + 1) * (2 * u)) by ring. apply poly. lra. }
    set (t := (2 * INR K + 1) * u) in *. assert (T0 : 0 <= t <= / 100) by (unfold t; split; nra).
    assert (WD : within (2 * K + 1) D (2 * h)). { apply Rabs_le_inv in DE. split; [lra|]. split; [|nra]. set (q := bb ^ (2 * K + 1)) in *. clearbody q t. assert (D0 : 2 * h * (1 - t) <= D) by lra. assert (0 <= D) by nra. apply Rle_trans with (2 * h * ((1 - t) * (1 + 2 * t))); [nra|]. apply Rle_trans with (D * (1 + 2 * t)); nra. }
    assert (W2 : within (2 * K + 4) D (2 * width g)).
    { destruct WD as (_ & A1 & B1). destruct WH as (P2 & A2 & B2). replace (2 * K + 4)%nat with (3 + (2 * K + 1))%nat by lia. split; [lra|]. rewrite pow_add. pose proof (bb_pow 3). pose proof (bb_pow (2 * K + 1)). split; nra. }
    assert (R2 : bpow radix2 (- (204)) <= 2 * width g <= bpow radix2 204). { change (- (204))%Z with (-204)%Z. change (- (203))%Z with (-203)%Z in RH. pose proof (bpow_le radix2 (-204) (-203) ltac:(lia)). replace 204%Z with (203 + 1)%Z by lia. rewrite dbl_bpow. pose proof (bpow_gt_0 radix2 (-203)). lra. }
    destruct (ap_rnd (2 * K + 4) 204 D (2 * width g) (few_K (2 * K + 4) ltac:(lia)) ltac:(lia) W2 R2) as [WR C].
    destruct (fsub_R _ _ F2 F1 C) as [FD VD].
    assert (AD : ap (2 * K + 5) 204 (fsub (x_max64 ln64 g) (x_min64 ln64 g)) (2 * width g)). { split; [exact FD|]. rewrite VD. fold D. split; [replace (2 * K + 5)%nat with (S (2 * K + 4)) by lia; exact WR|exact R2]. }
    unfold fdx. rewrite (dx_val m). unfold m. cbn [f_v f_T f_np exactR]. replace (10 * val (h_v g) * sqrt (val (h_T g))) with (2 * width g) by (unfold width; ring).
    replace (2 * K + 6)%nat with (S (2 * K + 5 + 0)) by lia. replace 236%Z with (204 + 32)%Z by lia. apply ap_div; [exact AD| |apply few_K; lia|lia]. apply ap_count. pose proof (rg_np g RG). lia.
  Qed.
  Lemma ap_cx : ap (4 * K + 18) 805 (cx64 ln64 g) (cx m).
  Proof.
    pose proof ap_dx as DX. unfold cx64, cx. replace (/ 2 * dt m * f_v m ^ 2) with (/ 2 * dt m * (val (h_v g) * val (h_v g))) by (unfold m; cbn [f_v exactR]; ring). replace (dx m ^ 2) with (dx m * dx m) by ring.
    replace (4 * K + 18)%nat with (S (4 + (4 * K + 13))) by lia. replace 805%Z with (333 + 472)%Z by lia. apply ap_div; [| |apply few_K; lia|lia].
    - apply (ap_mul 2 133 _ _ 1 200); [|apply (ap_mul 0 100 _ _ 0 100 _ _ ap_v ap_v); [apply few_small; lia|lia]|apply few_small; lia|lia]. apply (ap_mul 0 1 _ _ 1 132 _ _ ap_half ap_dt); [apply few_small; lia|lia].
    - replace (4 * K + 13)%nat with (S ((2 * K + 6) + (2 * K + 6))) by lia. apply (ap_mul _ 236 _ _ _ 236 _ _ DX DX); [apply few_K; lia|lia].
  Qed.
  (** [half * sigma^2] and the drift *)
  Lemma ap_hv : ap 2 201 (fmul half64 (fmul (h_v g) (h_v g))) (/ 2 * (val (h_v g) * val (h_v g))).
  Proof. apply (ap_mul 0 1 _ _ 1 200 _ _ ap_half); [|apply few_small; lia|lia]. apply (ap_mul 0 100 _ _ 0 100 _ _ ap_v ap_v); [apply few_small; lia|lia]. Qed.
  Lemma drift64 : let A := fsub (h_r g) (fmul half64 (fmul (h_v g) (h_v g))) in let Q := f_r m - / 2 * f_v m ^ 2 in
    fin A /\ Rabs (val A) <= bpow radix2 203 /\ Rabs (val A - Q) <= u * Rabs Q + 9 * u * (/ 2 * f_v m ^ 2).
  Proof.
    intros A Q. destruct ap_hv as (FV & WV & RV). set (hv := val (fmul half64 (fmul (h_v g) (h_v g)))) in *. destruct (within_abs 2 _ _ WV (few_small 2 ltac:(lia))) as [AV BV]. replace (INR 2) with 2 in AV by (cbn; lra).
    pose proof u_pos as U0. pose proof u_tiny as U1. destruct (rg_fin g RG) as (_ & _ & FR & _). pose proof (rg_r g RG) as RR.
    set (q := / 2 * (val (h_v g) * val (h_v g))) in *. assert (EQ : / 2 * f_v m ^ 2 = q) by (unfold q, m; cbn [f_v exactR]; ring). unfold Q. rewrite EQ. change (f_r m) with (val (h_r g)). set (r := val (h_r g)) in *.
    assert (B100 : bpow radix2 100 <= bpow radix2 202) by (apply bpow_le; lia). assert (B2 : 2 * bpow radix2 201 = bpow radix2 202) by (replace 202%Z with (201 + 1)%Z by lia; rewrite dbl_bpow; reflexivity).
    assert (QP : 0 < q) by (destruct WV; assumption). assert (HB : Rabs (r - hv) <= bpow radix2 202) by (apply Rabs_le; lra).
    destruct (rnd_cap 202 _ ltac:(lia) HB) as [C1 C2]. destruct (fsub_R _ _ FR FV C2) as [FA VA]. fold A in FA, VA. fold r hv in VA. split; [exact FA|]. rewrite VA. split; [apply Rle_trans with (1 := C1), bpow_le; lia|].
    pose proof (rnd_sum_err r (- hv) (val_fmt _) (fmt_opp _ (val_fmt _))) as E. change (r + - hv) with (r - hv) in E.
    assert (T1 : Rabs (r - hv) <= Rabs (r - q) + 8 * u * q). { replace (r - hv) with ((r - q) + - (hv - q)) by ring. eapply Rle_trans; [apply Rabs_triang|]. rewrite Rabs_Ropp. lra. }
    replace (rnd (r - hv) - (r - q)) with ((rnd (r - hv) - (r - hv)) + - (hv - q)) by ring. eapply Rle_trans; [apply Rabs_triang|]. rewrite Rabs_Ropp.
    assert (u * Rabs (r - hv) <= u * (Rabs (r - q) + 8 * u * q)) by (apply Rmult_le_compat_l; lra). assert (u * (8 * u * q) <= u * q) by (apply Rmult_le_compat_l; [lra|]; nra). lra.
  Qed.
  Hypothesis ST : stable Explicit m.
  Lemma cy_err : fin (cy64 ln64 g) /\ Rabs (val (cy64 ln64 g) - cy m) <= (4 * INR K + 22 + 5 * dx m) * u.
  Proof.
    destruct (stable_bounds Explicit m (exact_valid g RG) ST) as (CY & CX & CH).
    destruct drift64 as (FA & BA & EA). destruct ap_dt as (FD & WD & RD). pose proof ap_dx as DX.
    assert (AY : ap (2 * K + 7) 237 (fmul two (fdx ln64 g)) (2 * dx m)). { replace (2 * K + 7)%nat with (S (0 + (2 * K + 6))) by lia. apply (ap_mul 0 1 _ _ _ 236 _ _ ap_two DX); [apply few_K; lia|lia]. }
    destruct AY as (FY & WY & RY). set (A := fsub (h_r g) (fmul half64 (fmul (h_v g) (h_v g)))) in *. set (Q := f_r m - / 2 * f_v m ^ 2) in *.
    pose proof (within_pos _ _ _ WD) as PD. pose proof (within_pos _ _ _ WY) as PY. destruct (within_abs _ _ _ WY (few_K (2 * K + 7) ltac:(lia))) as [_ BY].
    assert (WR : within (2 * K + 8) (val (fdt g) / val (fmul two (fdx ln64 g))) (dt m / (2 * dx m))). { replace (2 * K + 8)%nat with (1 + (2 * K + 7))%nat by lia. apply within_mul; [exact WD|apply within_inv, WY]. }
    destruct (within_abs _ _ _ WR (few_K (2 * K + 8) ltac:(lia))) as [ER _]. set (R := dt m / (2 * dx m)) in *.
    assert (DP : 0 < dx m) by (destruct DX as (_ & (P & _) & _); exact P). assert (TP : 0 < dt m) by (destruct WD; assumption).
    assert (RQ : R * Q = cy m) by (unfold R, Q, cy; field; lra). assert (RV : R * (/ 2 * f_v m ^ 2) = cx m * dx m / 2) by (unfold R, cx; field; lra).
    assert (RP : 0 < R) by (unfold R; apply Rdiv_lt_0_compat; lra).
    assert (KN : INR (2 * K + 8) = 2 * INR K + 8) by (rewrite plus_INR, mult_INR; cbn; ring). rewrite KN in ER.
    pose proof (pos_INR K) as K0. pose proof K_u as KU. pose proof u_pos as U0. pose proof u_tiny as U1. pose proof eta_pos as E0.
    assert (BD : val (fdt g) <= bpow radix2 133). { destruct (within_abs _ _ _ WD (few_small 1 ltac:(lia))) as [_ B]. replace 133%Z with (132 + 1)%Z by lia. rewrite dbl_bpow. lra. }
    assert (YL : bpow radix2 (-238) <= val (fmul two (fdx ln64 g))). { assert (E : bpow radix2 (-237) = 2 * bpow radix2 (-238)) by (replace (-237)%Z with (-238 + 1)%Z by lia; apply dbl_bpow). change (- (237))%Z with (-237)%Z in RY. lra. }
    (* no overflow *)
    assert (CT : Rabs (val (fdt g) * val A) <= bpow radix2 336). { rewrite Rabs_mult, (Rabs_pos_eq (val (fdt g))) by lra. apply Rle_trans with (bpow radix2 133 * bpow radix2 203); [apply Rmult_le_compat; try lra; apply Rabs_pos|]. rewrite <- bpow_plus. right. reflexivity. }
    destruct (rnd_cap 336 _ ltac:(lia) CT) as [CT1 CT2]. destruct (fmul_R _ _ FD FA CT2) as [FM VM].
    set (y := val (fmul two (fdx ln64 g))) in *.
    assert (YI : / y <= bpow radix2 238). { change 238%Z with (- (-238))%Z. rewrite bpow_opp. apply Rinv_le_contravar; [apply bpow_gt_0|exact YL]. } assert (YI0 : 0 < / y) by (apply Rinv_0_lt_compat; lra).
    assert (CQ : Rabs (rnd (val (fdt g) * val A) / y) <= bpow radix2 574). { unfold Rdiv. rewrite Rabs_mult, (Rabs_pos_eq (/ y)) by lra. apply Rle_trans with (bpow radix2 336 * bpow radix2 238); [apply Rmult_le_compat; try lra; apply Rabs_pos|]. rewrite <- bpow_plus. right. reflexivity. }
    destruct (rnd_cap 574 _ ltac:(lia) CQ) as [_ CQ2]. rewrite <- VM in CQ2. destruct (fdiv_R _ _ FM (Rgt_not_eq _ _ PY) CQ2) as [FC VC]. fold A (cy64 ln64 g) in FC, VC.
    split; [exact FC|]. fold (cy64 ln64 g). unfold cy64. fold A. rewrite VC, VM. fold y. rewrite <- RQ.
    set (s := 4 * (2 * INR K + 8) * u) in *. assert (S01 : 0 <= s <= 1) by (unfold s; split; nra).
    eapply Rle_trans; [apply (quot_err _ y _ Q R s _ PD PY S01 ER EA)|]. set (al := u * Rabs Q + 9 * u * (/ 2 * f_v m ^ 2)).
    assert (QC : R * Rabs Q <= / 2). { rewrite <- (Rabs_pos_eq R) by lra. rewrite <- Rabs_mult, RQ. apply Rabs_le. lra. }
    assert (AR : R * al <= u * / 2 + 9 * u * (dx m / 4)). { replace (R * al) with (u * (R * Rabs Q) + 9 * u * (R * (/ 2 * f_v m ^ 2))) by (unfold al; ring). rewrite RV. apply Rplus_le_compat; [apply Rmult_le_compat_l; lra|]. apply Rmult_le_compat_l; [lra|]. nra. }
    assert (EY : eta / y <= u / 1000). { unfold Rdiv at 1. apply Rle_trans with (eta * bpow radix2 238); [apply Rmult_le_compat_l; lra|]. unfold eta. rewrite Rmult_assoc, <- bpow_plus. assert (bpow radix2 (-1074 + 238) <= bpow radix2 (-63)) by (apply bpow_le; lia). assert (EU : bpow radix2 (-63) = u / 1024). { unfold u. change (IZR (2 ^ 53)) with (bpow radix2 53). rewrite <- bpow_opp. replace (-63)%Z with (- (53) + -10)%Z by lia. rewrite bpow_plus. change (bpow radix2 (-10)) with (/ 1024). reflexivity. } lra. }
    assert (EE : eta <= u / 1000) by apply eta_u.
    assert (SQ : s * (R * Rabs Q) <= s * / 2) by (apply Rmult_le_compat_l; lra).
    set (ra := R * al) in *. set (rq := R * Rabs Q) in *. set (ey := eta / y) in *. replace (2 * R * al) with (2 * ra) by (unfold ra; ring). set (d := dx m) in *.
    assert (6 * u * (rq + ra) <= 6 * u * (/ 2 + ra)) by (apply Rmult_le_compat_l; lra).
    assert (6 * u * ra <= / 1000 * ra). { apply Rmult_le_compat_r; [|lra]. unfold ra, al. apply Rmult_le_pos; [lra|]. apply Rplus_le_le_0_compat; [apply Rmult_le_pos; [lra|apply Rabs_pos]|]. apply Rmult_le_pos; [lra|]. pose proof (pow2_ge_0 (f_v m)). lra. }
    unfold s in *. assert (0 < u * d) by (apply Rmult_lt_0_compat; lra). lra.
  Qed.
  (** the three weights of the explicit scheme *)
  Theorem weights64_section : fin (sub64 ln64 g) /\ fin (diag64 ln64 g) /\ fin (super64 ln64 g) /\
    Rabs (val (sub64 ln64 g) - (cx m - cy m)) + Rabs (val (diag64 ln64 g) - (1 - 2 * cx m)) + Rabs (val (super64 ln64 g) - (cx m + cy m)) <= (40 * INR K + 200 + 20 * dx m) * u.
  Proof.
    destruct (stable_bounds Explicit m (exact_valid g RG) ST) as (CY & CX & CH). destruct ap_cx as (FX & WX & RX). destruct (within_abs _ _ _ WX FK) as [EX BX]. destruct cy_err as [FY EY].
    assert (KN : INR (4 * K + 18) = 4 * INR K + 18) by (rewrite plus_INR, mult_INR; cbn; ring). rewrite KN in EX. destruct ap_dx as (_ & (DP & _) & DR). pose proof (bpow_le radix2 236 300 ltac:(lia)) as B3.
    set (x := val (cx64 ln64 g)) in *. set (y := val (cy64 ln64 g)) in *. set (d := dx m) in *. set (X := cx m) in *. set (Y := cy m) in *.
    pose proof (pos_INR K) as K0. pose proof K_u as KU. pose proof u_pos as U0. pose proof u_tiny as U1. pose proof eta_u as E1. pose proof eta_pos as E0. destruct one_R as [F1 V1]. destruct two_R as [F2 V2].
    assert (EX' : Rabs (x - X) <= 2 * (4 * INR K + 18) * u) by (apply Rle_trans with (1 := EX); apply Rle_trans with (4 * (4 * INR K + 18) * u * / 2); [apply Rmult_le_compat_l; [apply Rmult_le_pos; lra|lra]|right; field]).
    assert (BIG : 4 <= bpow radix2 300) by (change 4 with (bpow radix2 2); apply bpow_le; lia).
    assert (DU : u * d <= 1 * bpow radix2 300) by (apply Rmult_le_compat; lra). apply Rabs_le_inv in EX'. apply Rabs_le_inv in EY. 
    assert (B4 : 4 * bpow radix2 300 <= bpow radix2 303) by (replace 303%Z with (3 + 300)%Z by lia; rewrite bpow_plus; change (bpow radix2 3) with 8; lra).
    assert (B8 : 8 * bpow radix2 300 = bpow radix2 303) by (replace 303%Z with (3 + 300)%Z by lia; rewrite bpow_plus; reflexivity).
    assert (C1 : Rabs (x - y) <= bpow radix2 303) by (apply Rabs_le; lra). assert (C2 : Rabs (x + y) <= bpow radix2 303) by (apply Rabs_le; lra).
    assert (C3 : Rabs (2 * x) <= bpow radix2 303) by (apply Rabs_le; lra).
    destruct (rnd_cap 303 _ ltac:(lia) C1) as [_ C1']. destruct (rnd_cap 303 _ ltac:(lia) C2) as [_ C2']. destruct (rnd_cap 303 _ ltac:(lia) C3) as [C3'' C3'].
    destruct (fsub_R _ _ FX FY C1') as [FS VS]. destruct (fadd_R _ _ FX FY C2') as [FP VP]. rewrite <- V2 in C3'. destruct (fmul_R _ _ F2 FX C3') as [FM VM]. fold x in VM. rewrite V2 in VM.
    pose proof (rnd_abs_err (2 * x)) as G. rewrite (Rabs_pos_eq (2 * x)) in G by lra.
    assert (G' : Rabs (rnd (2 * x) - 2 * x) <= 3 * u) by (assert (u * (2 * x) <= u * 2) by (apply Rmult_le_compat_l; lra); lra). apply Rabs_le_inv in G'.
    assert (C4 : Rabs (1 - rnd (2 * x)) <= 2) by (apply Rabs_le; lra).
    assert (C4' : Rabs (rnd (1 - rnd (2 * x))) < fmaxR). { apply (rnd_cap 300); [lia|lra]. }
    assert (FDD : fin (diag64 ln64 g) /\ val (diag64 ln64 g) = rnd (1 - rnd (2 * x))). { unfold diag64. pose proof (fsub_R one (fmul two (cx64 ln64 g)) F1 FM) as H. rewrite V1, VM in H. apply H, C4'. } destruct FDD as [FDD VD].
    split; [exact FS|]. split; [exact FDD|]. split; [exact FP|]. rewrite VD. unfold sub64, super64. rewrite VS, VP. fold x y.
    pose proof (rnd_sum_err x (- y) (val_fmt _) (fmt_opp _ (val_fmt _))) as R1. change (x + - y) with (x - y) in R1. pose proof (rnd_sum_err x y (val_fmt _) (val_fmt _)) as R2. pose proof (rnd_abs_err (1 - rnd (2 * x))) as R3.
    set (b := 2 * (4 * INR K + 18) * u) in *. set (c := (4 * INR K + 22 + 5 * d) * u) in *.
    assert (UD : 0 < u * d) by (apply Rmult_lt_0_compat; lra). assert (C0 : c <= / 10 + / 1000 * d). { unfold c. assert (5 * u * d <= / 1000 * d) by (apply Rmult_le_compat_r; lra). lra. }
    assert (Bc : u * c <= u / 10 + / 1000 * (u * d)) by (apply Rle_trans with (u * (/ 10 + / 1000 * d)); [apply Rmult_le_compat_l; lra|right; field]). assert (Bb : b <= / 10) by (unfold b; lra).
    assert (D1 : Rabs (x - y) <= / 2 + X + c + b) by (apply Rabs_le; lra). assert (D2 : Rabs (x + y) <= / 2 + X + c + b) by (apply Rabs_le; lra).
    assert (M1 : u * Rabs (x - y) <= u * (/ 2 + X + c + b)) by (apply Rmult_le_compat_l; lra). assert (M2 : u * Rabs (x + y) <= u * (/ 2 + X + c + b)) by (apply Rmult_le_compat_l; lra). assert (M3 : u * Rabs (1 - rnd (2 * x)) <= u * 2) by (apply Rmult_le_compat_l; lra).
    assert (UX : u * X <= u * / 2) by (apply Rmult_le_compat_l; lra). assert (UB : u * b <= u * / 10) by (apply Rmult_le_compat_l; lra).
    assert (E1' : Rabs (rnd (x - y) - (X - Y)) <= u * Rabs (x - y) + b + c). { replace (rnd (x - y) - (X - Y)) with ((rnd (x - y) - (x - y)) + ((x - y) - (X - Y))) by ring. eapply Rle_trans; [apply Rabs_triang|]. assert (Rabs (x - y - (X - Y)) <= b + c) by (apply Rabs_le; lra). lra. }
    assert (E2' : Rabs (rnd (x + y) - (X + Y)) <= u * Rabs (x + y) + b + c). { replace (rnd (x + y) - (X + Y)) with ((rnd (x + y) - (x + y)) + ((x + y) - (X + Y))) by ring. eapply Rle_trans; [apply Rabs_triang|]. assert (Rabs (x + y - (X + Y)) <= b + c) by (apply Rabs_le; lra). lra. }
    assert (E3' : Rabs (rnd (1 - rnd (2 * x)) - (1 - 2 * X)) <= 2 * u + eta + 3 * u + 2 * b). { replace (rnd (1 - rnd (2 * x)) - (1 - 2 * X)) with ((rnd (1 - rnd (2 * x)) - (1 - rnd (2 * x))) + ((1 - rnd (2 * x)) - (1 - 2 * X))) by ring. eapply Rle_trans; [apply Rabs_triang|]. assert (Rabs (1 - rnd (2 * x) - (1 - 2 * X)) <= 3 * u + 2 * b) by (apply Rabs_le; lra). lra. }
    assert (KU0 : 0 <= INR K * u) by (apply Rmult_le_pos; lra). apply Rle_trans with (4 * b + 2 * c + 9 * u + / 100 * (u * d)); [lra|]. unfold b, c. lra.
  Qed.
End Grid64.

(** The weights the explicit pricer computes are finite, and together within
    [(40 K + 200 + 20 dx) u] of the exact weights of a grid of the same parameters: [K] bounds the
    logarithm of the spot price in half grid widths, and nothing else is assumed of the logarithm. *)
Theorem weights64_accurate : forall (ln64 : f64 -> f64) g K, ranged g -> fin (ln64 (h_s g)) ->
  Rabs (val (ln64 (h_s g))) <= INR K * (5 * val (h_v g) * sqrt (val (h_T g))) -> INR (4 * K + 18) * u <= / 100 ->
  let m := exactR g in stable Explicit m ->
  fin (sub64 ln64 g) /\ fin (diag64 ln64 g) /\ fin (super64 ln64 g) /\
  Rabs (val (sub64 ln64 g) - (cx m - cy m)) + Rabs (val (diag64 ln64 g) - (1 - 2 * cx m)) + Rabs (val (super64 ln64 g) - (cx m + cy m)) <= (40 * INR K + 200 + 20 * dx m) * u.
Proof. intros ln64 g K RG LF LB FK m ST. exact (weights64_section ln64 g K RG LF LB FK ST). Qed.
Print Assumptions weights64_accurate.

Definition grid64 : fd64 := Fd64 two one (lit 1 (-4)) (lit 1 (-2)) one 1 4 Put (European date_min).
Definition grid_ln (x : f64) : f64 := nearest64 (ln (val x)).
Lemma grid_exact : exactR grid64 = Fd 2 1 (/ 16) (/ 4) 1 1 4 Put (European date_min).
Proof.
  unfold exactR, grid64. cbn [h_s h_k h_r h_v h_T h_nt h_np h_tf h_ex]. destruct one_R as [_ ->]. destruct two_R as [_ ->].
  destruct (is_lit (lit 1 (-4)) 1 (-4) (/ 16)) as [_ ->]; [vm_compute; reflexivity|lia|cbn; lia|change (bpow radix2 (-4)) with (/ 16); lra|].
  destruct (is_lit (lit 1 (-2)) 1 (-2) (/ 4)) as [_ ->]; [vm_compute; reflexivity|lia|cbn; lia|change (bpow radix2 (-2)) with (/ 4); lra|]. reflexivity.
Qed.
Lemma grid_vals : val (h_s grid64) = 2 /\ val (h_k grid64) = 1 /\ val (h_r grid64) = / 16 /\ val (h_v grid64) = / 4 /\ val (h_T grid64) = 1.
Proof. pose proof grid_exact as E. exact (conj (f_equal f_s E) (conj (f_equal f_k E) (conj (f_equal f_r E) (conj (f_equal f_v E) (f_equal f_T E))))). Qed.
Lemma ln_2_bounds : 0 < ln 2 <= 1.
Proof. split; [rewrite <- ln_1; apply ln_increasing; lra|]. rewrite <- (ln_exp 1). apply Rlt_le, ln_increasing; [lra|]. pose proof (exp_ineq1 1 ltac:(lra)). lra. Qed.
Lemma grid_ln_R : fin (grid_ln two) /\ 0 <= val (grid_ln two) <= 1 /\ Rabs (val (grid_ln two) - ln 2) <= 2 * u.
Proof.
  unfold grid_ln. destruct two_R as [_ ->]. pose proof ln_2_bounds as L. destruct (nearest64_R (ln 2) ltac:(rewrite Rabs_pos_eq; lra)) as [F ->]. split; [exact F|]. split.
  - split; [rewrite <- rnd_0; apply rnd_le; lra|]. rewrite <- (rnd_id 1) by (apply (int_fmt 1); cbn; lia). apply rnd_le. lra.
  - pose proof (rnd_abs_err (ln 2)) as H. rewrite (Rabs_pos_eq (ln 2)) in H by lra. pose proof u_pos. pose proof eta_u. nra.
Qed.
Lemma grid_ranged : ranged grid64.
Proof.
  destruct grid_vals as (E1 & E2 & E3 & E4 & E5).
  assert (B : bpow radix2 (-100) <= / 4) by (change (/ 4) with (bpow radix2 (-2)); apply bpow_le; lia). assert (C : 1 <= bpow radix2 100) by (change 1 with (bpow radix2 0); apply bpow_le; lia).
  constructor; [repeat split; vm_compute; reflexivity|rewrite E1; lra|rewrite E2; lra|rewrite E3; lra|rewrite E4; lra|rewrite E5; lra|cbn; lia|cbn; lia].
Qed.
Lemma grid_stable : stable Explicit (exactR grid64).
Proof. rewrite grid_exact. unfold stable. cbn [f_s f_v f_T f_np f_r f_nt]. rewrite sqrt_1. change (INR 4) with (1 + 1 + 1 + 1). change (INR 1) with 1. split; [|lra]. replace (/ 16 - / 2 * (/ 4) ^ 2) with (/ 32) by field. rewrite Rabs_pos_eq; lra. Qed.
(** a put on a spot price of two *)
Example weights64_case : ranged grid64 /\ stable Explicit (exactR grid64) /\ dx (exactR grid64) = 5 / 8 /\
  Rabs (val (sub64 grid_ln grid64) - (8 / 100 - 25 / 1000)) + Rabs (val (diag64 grid_ln grid64) - 84 / 100) + Rabs (val (super64 grid_ln grid64) - (8 / 100 + 25 / 1000)) <= 260 * u.
Proof.
  split; [exact grid_ranged|]. split; [exact grid_stable|]. destruct grid_ln_R as (F & B & _).
  assert (DX : dx (exactR grid64) = 5 / 8). { rewrite dx_val, grid_exact. cbn [f_v f_T f_np]. rewrite sqrt_1. change (INR 4) with (1 + 1 + 1 + 1). field. } split; [exact DX|].
  destruct (weights64_accurate grid_ln grid64 1 grid_ranged F) as (_ & _ & _ & H).
  - destruct grid_vals as (E1 & E2 & E3 & E4 & E5). rewrite E4, E5, sqrt_1. change (h_s grid64) with two. rewrite Rabs_pos_eq by lra. change (INR 1) with 1. lra.
  - apply (few_small 22). lia.
  - exact grid_stable.
  - rewrite DX in H. change (INR 1) with 1 in H. assert (CX : cx (exactR grid64) = 8 / 100 /\ cy (exactR grid64) = 25 / 1000). { unfold cx, cy, dt. rewrite DX, grid_exact. cbn [f_v f_T f_np f_r f_nt]. change (INR 1) with 1. split; field. }
    destruct CX as [CX CY]. rewrite CX, CY in H. replace (84 / 100) with (1 - 2 * (8 / 100)) by field. pose proof u_pos. lra.
Qed.
