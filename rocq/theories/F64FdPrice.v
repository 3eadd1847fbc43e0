(** C107, continued: the explicit pricer from its arguments to its price, with the accuracy of the
    library's exponential and logarithm as the only hypotheses about either. *)
From Coq Require Import ZArith Reals Lra Lia List Bool Psatz.
From Flocq Require Import Core.Core IEEE754.BinarySingleNaN Relative.
From Verif Require Import Res DateModel PayoffModel FdModel FdProofs FdProps F64Model F64Base F64Order F64RootModel F64Root F64QuadModel F64Quad F64Sim F64PayModel F64Pay F64Day F64FdModel F64Fd F64FdGrid.
Import ListNotations.
Open Scope R_scope.

Lemma exp_step d : Rabs d <= / 2 -> Rabs (exp d - 1) <= 2 * Rabs d.
Proof.
  intros H. assert (L : 1 + d <= exp d). { destruct (Req_dec d 0) as [->|N]; [rewrite exp_0; lra|]. left. apply exp_ineq1, N. }
  assert (L' : 1 + - d <= exp (- d)). { destruct (Req_dec d 0) as [->|N]; [rewrite Ropp_0, exp_0; lra|]. left. apply exp_ineq1. lra. }
  assert (E : exp d * exp (- d) = 1) by (rewrite <- exp_plus, Rplus_opp_r; apply exp_0). pose proof (exp_pos d) as P. pose proof H as H'. apply Rabs_le_inv in H'.
  assert (U : exp d * (1 - d) <= 1) by nra. unfold Rabs at 2. destruct (Rcase_abs d); apply Rabs_le; nra.
Qed.
Lemma exp_move x y n : Rabs (x - y) <= n -> n <= / 2 -> Rabs (exp x - exp y) <= 2 * n * exp y.
Proof.
  intros H N. replace x with (y + (x - y)) by ring. rewrite exp_plus. pose proof (exp_step (x - y) ltac:(lra)) as E. pose proof (exp_pos y) as P. replace (exp y * exp (x - y) - exp y) with (exp y * (exp (x - y) - 1)) by ring. rewrite Rabs_mult, (Rabs_pos_eq (exp y)) by lra. rewrite Rmult_comm. apply Rmult_le_compat_r; lra.
Qed.
(** the library's exponential is accurate to [mu] *)
Definition faithful (exp64 : f64 -> f64) (mu : R) : Prop :=
  forall x, fin x -> Rabs (val x) <= 610 -> fin (exp64 x) /\ Rabs (val (exp64 x) - exp (val x)) <= mu * exp (val x).

Section Price64.
  Variables exp64 ln64 : f64 -> f64.
  Variable g : fd64.
  Variable K : nat.
  Variables mu lam : R.
  Hypothesis RG : ranged g.
  Let m := exactR g.
  Let w := width g.
  Hypothesis LF : fin (ln64 (h_s g)).
  Hypothesis LB : Rabs (val (ln64 (h_s g))) <= INR K * width g.
  Hypothesis FK : few (4 * K + 18).
  Hypothesis LN : Rabs (val (ln64 (h_s g)) - ln (val (h_s g))) <= lam.
  Hypothesis EXP : faithful exp64 mu.
  Hypothesis MU : 0 <= mu <= / 100.
  Let nu := lam + (21 * INR K + 80) * u * w.
  Let om := 10 * u * (f_r m * f_T m) + eta.
  Hypothesis NU : nu <= / 100.
  Hypothesis SPAN : Rabs (ln (f_s m)) + w <= 600.
  Hypothesis RT : f_r m * f_T m <= 600.
  Let X := exp (x_max m).
  Let M := exp (f_r m * f_T m) * (X + f_k m).
  Hypothesis MB : M <= bpow radix2 900.

  Lemma lam_0 : 0 <= lam. Proof. pose proof (Rabs_pos (val (ln64 (h_s g)) - ln (val (h_s g)))). lra. Qed.
  Lemma w_pos : 0 < w. Proof. destruct (ap_hw g RG) as (_ & (P & _) & _). exact P. Qed.
  Lemma om_small : 0 <= om <= / 1000.
  Proof. unfold om. pose proof u_pos. pose proof u_9. pose proof eta_pos. pose proof eta_u. destruct (exact_valid g RG) as (_ & _ & r & _ & T & _). fold m in r, T. assert (0 <= f_r m * f_T m) by nra. nra. Qed.
  Lemma ends_exact : x_min m = ln (f_s m) - w /\ x_max m = ln (f_s m) + w. Proof. split; reflexivity. Qed.
  Lemma ends_close : fin (x_min64 ln64 g) /\ fin (x_max64 ln64 g) /\ Rabs (val (x_min64 ln64 g) - x_min m) <= lam + (4 * INR K + 14) * u * w /\ Rabs (val (x_max64 ln64 g) - x_max m) <= lam + (4 * INR K + 14) * u * w /\
    Rabs (val (x_min64 ln64 g)) <= (INR K + 3) * w.
  Proof.
    destruct (ends64 ln64 g K RG LF LB FK) as (F1 & F2 & Q1 & Q2 & LH & PH & HB & HE & BIG). fold w in HB, HE. set (l := val (ln64 (h_s g))) in *. set (h := val (half_width g)) in *. destruct ends_exact as [-> ->]. change (f_s m) with (val (h_s g)). set (L := ln (val (h_s g))) in *.
    pose proof (Rabs_triang l h) as T1. pose proof (Rabs_triang l (- h)) as T2. rewrite Rabs_Ropp in T2. rewrite (Rabs_pos_eq h) in T1, T2 by lra. change (l + - h) with (l - h) in T2.
    pose proof (pos_INR K) as K0. pose proof u_pos as U0. pose proof u_tiny as U1. pose proof w_pos as W0. fold w in LB.
    assert (HB' : h <= w + / 100 * w). { apply Rabs_le_inv in HE. nra. }
    assert (S : Rabs l + h <= (INR K + 2) * w) by lra. assert (M1 : u * Rabs (l - h) <= u * ((INR K + 2) * w)) by (apply Rmult_le_compat_l; lra). assert (M2 : u * Rabs (l + h) <= u * ((INR K + 2) * w)) by (apply Rmult_le_compat_l; lra).
    assert (KW : 0 <= INR K * u * w) by (apply Rmult_le_pos; [apply Rmult_le_pos; lra|lra]). 
    split; [exact F1|]. split; [exact F2|]. apply Rabs_le_inv in Q1. apply Rabs_le_inv in Q2. apply Rabs_le_inv in HE. pose proof LN as LN'. apply Rabs_le_inv in LN'.
    split; [apply Rabs_le; lra|]. split; [apply Rabs_le; lra|]. assert (M3 : u * Rabs (l - h) <= / 10 * ((INR K + 2) * w)) by (apply Rmult_le_compat; try lra; apply Rabs_pos).
    pose proof (Rabs_pos (l - h)) as P0. assert (T3 : Rabs (l - h) <= (INR K + 1 + / 100) * w) by lra. assert (M4 : u * Rabs (l - h) <= / 10 * w). { pose proof (K_u K FK) as KU. apply Rle_trans with (u * ((INR K + 2) * w)); [exact M1|]. rewrite <- Rmult_assoc. apply Rmult_le_compat_r; lra. }
    apply Rabs_le. apply Rabs_le_inv in T3. lra.
  Qed.
  Lemma node_close i : (1 <= i <= f_np m)%nat -> fin (node64 ln64 g i) /\ Rabs (val (node64 ln64 g i) - node m i) <= nu /\ node m i <= x_max m /\ Rabs (node m i) <= 600.
  Proof.
    intros Hi. destruct ends_close as (F1 & _ & Q1 & _ & B1). pose proof (ap_dx ln64 g K RG LF LB FK) as DX. pose proof (rg_np g RG) as NP. change (f_np m) with (h_np g) in Hi.
    assert (AI : ap 0 32 (of_usize i) (INR i)) by (apply ap_count; lia).
    assert (AP : ap (2 * K + 7) 268 (fmul (of_usize i) (fdx ln64 g)) (INR i * dx m)). { replace (2 * K + 7)%nat with (S (0 + (2 * K + 6))) by lia. replace 268%Z with (32 + 236)%Z by lia. apply ap_mul; [exact AI|exact DX|apply (few_K K FK); lia|lia]. }
    destruct AP as (FP & WP & RP). destruct (within_abs _ _ _ WP (few_K K FK (2 * K + 7) ltac:(lia))) as [EP BP]. assert (KN : INR (2 * K + 7) = 2 * INR K + 7) by (rewrite plus_INR, mult_INR; cbn; ring). rewrite KN in EP.
    set (p := val (fmul (of_usize i) (fdx ln64 g))) in *. set (P := INR i * dx m) in *.
    assert (PW : 0 < P <= 2 * w). { split; [destruct WP; assumption|]. unfold P. rewrite dx_val. change (f_np m) with (h_np g). replace (10 * f_v m * sqrt (f_T m)) with (2 * w) by (unfold w, width, m; cbn [f_v f_T exactR]; ring). pose proof w_pos. assert (I1 : INR i <= INR (h_np g)) by (apply le_INR; lia). assert (I2 : 0 < INR (h_np g)) by (apply lt_0_INR; lia). apply Rmult_le_reg_r with (INR (h_np g)); [exact I2|]. replace (INR i * (2 * w / INR (h_np g)) * INR (h_np g)) with (INR i * (2 * w)) by (field; lra). nra. }
    pose proof (pos_INR K) as K0. pose proof (K_u K FK) as KU. pose proof u_pos as U0. pose proof u_tiny as U1. pose proof w_pos as W0.
    assert (EP' : Rabs (p - P) <= (16 * INR K + 56) * u * w). { apply Rle_trans with (1 := EP). apply Rle_trans with (4 * (2 * INR K + 7) * u * (2 * w)); [apply Rmult_le_compat_l; [apply Rmult_le_pos; lra|lra]|right; ring]. }
    set (x := val (x_min64 ln64 g)) in *. assert (SB : Rabs (x + p) <= (INR K + 7) * w). { eapply Rle_trans; [apply Rabs_triang|]. rewrite (Rabs_pos_eq p) by lra. lra. }
    destruct (ap_hw g RG) as (_ & _ & RW). fold w in RW.
    assert (CB : Rabs (x + p) <= bpow radix2 300). { apply Rle_trans with (1 := SB). apply Rle_trans with (bpow radix2 53 * bpow radix2 203); [apply Rmult_le_compat; try lra|rewrite <- bpow_plus; apply bpow_le; lia].
      change (bpow radix2 53) with (IZR (2 ^ 53)). assert (UU : u * IZR (2 ^ 53) = 1) by (unfold u; apply Rinv_l; apply Rgt_not_eq, IZR_lt; reflexivity). set (z := IZR (2 ^ 53)) in *. assert (Z1 : 1 <= z) by (apply (IZR_le 1); lia). clearbody z. assert (H : (INR K + 7) * u <= / 100) by lra. nra. }
    destruct (rnd_cap 300 _ ltac:(lia) CB) as [_ C]. destruct (fadd_R _ _ F1 FP C) as [FN VN]. fold (node64 ln64 g i) in FN, VN. fold x p in VN. split; [exact FN|]. rewrite VN.
    pose proof (rnd_sum_err x p (val_fmt _) (val_fmt _)) as ER. assert (M1 : u * Rabs (x + p) <= u * ((INR K + 7) * w)) by (apply Rmult_le_compat_l; lra).
    assert (N : node m i = x_min m + P) by reflexivity. destruct ends_exact as [XI XA]. pose proof (Rle_abs (ln (f_s m))) as A1. pose proof (Rle_abs (- ln (f_s m))) as A2. rewrite Rabs_Ropp in A2.
    split; [|split; [rewrite N, XI, XA; lra|rewrite N, XI; apply Rabs_le; lra]].
    rewrite N. replace (rnd (x + p) - (x_min m + P)) with ((rnd (x + p) - (x + p)) + ((x - x_min m) + (p - P))) by ring. eapply Rle_trans; [apply Rabs_triang|]. pose proof (Rabs_triang (x - x_min m) (p - P)) as T. unfold nu. assert (0 <= u * w) by (apply Rmult_le_pos; lra). lra.
  Qed.
  Lemma exp_close x y n : fin x -> Rabs (val x - y) <= n -> n <= / 100 -> Rabs y <= 601 -> fin (exp64 x) /\ Rabs (val (exp64 x) - exp y) <= 2 * (mu + n) * exp y.
  Proof.
    intros Fx H N B. assert (N0 : 0 <= n) by (pose proof (Rabs_pos (val x - y)); lra). assert (BX : Rabs (val x) <= 610). { replace (val x) with (y + (val x - y)) by ring. eapply Rle_trans; [apply Rabs_triang|]. lra. }
    destruct (EXP x Fx BX) as [F E]. split; [exact F|]. pose proof (exp_move (val x) y n H ltac:(lra)) as MV. pose proof (exp_pos y) as P. assert (UB : exp (val x) <= 2 * exp y). { apply Rabs_le_inv in MV. nra. }
    replace (val (exp64 x) - exp y) with ((val (exp64 x) - exp (val x)) + (exp (val x) - exp y)) by ring. eapply Rle_trans; [apply Rabs_triang|]. assert (mu * exp (val x) <= mu * (2 * exp y)) by (apply Rmult_le_compat_l; lra). lra.
  Qed.
  Lemma k_pos : 0 < f_k m. Proof. apply (rg_k g RG). Qed.
  Lemma X_pos : 0 < X. Proof. apply exp_pos. Qed.
  Lemma rT_0 : 0 <= f_r m * f_T m. Proof. destruct (exact_valid g RG) as (_ & _ & r & _ & T & _). fold m in r, T. nra. Qed.
  Lemma XM : X + f_k m <= M. Proof. unfold M. pose proof rT_0. pose proof X_pos. pose proof k_pos. assert (1 <= exp (f_r m * f_T m)) by (rewrite <- exp_0; apply exp_le; lra). nra. Qed.
  Lemma nu_0 : 0 <= nu. Proof. unfold nu. pose proof lam_0. pose proof w_pos. pose proof u_pos. pose proof (pos_INR K). assert (0 <= (21 * INR K + 80) * u * w) by (apply Rmult_le_pos; [apply Rmult_le_pos; lra|lra]). lra. Qed.
  Lemma payoff_close i : (1 <= i < f_np m)%nat -> fin (payoff64 g (exp64 (node64 ln64 g i))) /\
    Rabs (val (payoff64 g (exp64 (node64 ln64 g i))) - FdModel.payoff m (exp (node m i))) <= (2 * (mu + nu) + 2 * u) * (X + f_k m) /\ 0 <= FdModel.payoff m (exp (node m i)) <= X + f_k m.
  Proof.
    intros Hi. destruct (node_close i ltac:(lia)) as (FN & EN & BN & RN). destruct (exp_close _ _ _ FN EN NU ltac:(lra)) as [FE EE]. set (s := val (exp64 (node64 ln64 g i))) in *. set (S0 := exp (node m i)) in *.
    assert (SX : S0 <= X) by (apply exp_le; exact BN). pose proof (exp_pos (node m i)) as SP. fold S0 in SP. pose proof k_pos as KP. pose proof X_pos as XP. pose proof nu_0. pose proof u_pos as U0. pose proof u_tiny as U1. pose proof XM as XM'.
    set (ta := 2 * (mu + nu)) in *. assert (TA : 0 <= ta <= / 10) by (unfold ta; lra). assert (EE' : Rabs (s - S0) <= ta * X) by (apply Rle_trans with (1 := EE); apply Rmult_le_compat_l; lra). clear EE.
    change (f_k m) with (val (h_k g)) in *. set (k := val (h_k g)) in *. assert (FKK : fin (h_k g)) by apply RG. assert (TX : ta * X <= / 10 * X) by (apply Rmult_le_compat_r; lra). assert (Tk : 0 <= ta * k) by (apply Rmult_le_pos; lra). apply Rabs_le_inv in EE'.
    assert (B1 : Rabs (s - k) <= 2 * (X + k)) by (apply Rabs_le; lra). assert (B2 : Rabs (k - s) <= 2 * (X + k)) by (apply Rabs_le; lra).
    assert (CC : 2 * (X + k) <= bpow radix2 901) by (replace 901%Z with (900 + 1)%Z by lia; rewrite dbl_bpow; lra).
    destruct (rnd_cap 901 (s - k) ltac:(lia) ltac:(lra)) as [_ C1]. destruct (rnd_cap 901 (k - s) ltac:(lia) ltac:(lra)) as [_ C2].
    assert (R1 : Rabs (rnd (s - k) - (S0 - k)) <= (ta + 2 * u) * (X + k)). { pose proof (rnd_sum_err s (- k) (val_fmt _) (fmt_opp _ (val_fmt _))) as E. change (s + - k) with (s - k) in E. assert (u * Rabs (s - k) <= u * (2 * (X + k))) by (apply Rmult_le_compat_l; lra). replace (rnd (s - k) - (S0 - k)) with ((rnd (s - k) - (s - k)) + (s - S0)) by ring. eapply Rle_trans; [apply Rabs_triang|]. assert (Rabs (s - S0) <= ta * X) by (apply Rabs_le; lra). lra. }
    assert (R2 : Rabs (rnd (k - s) - (k - S0)) <= (ta + 2 * u) * (X + k)). { pose proof (rnd_sum_err k (- s) (val_fmt _) (fmt_opp _ (val_fmt _))) as E. change (k + - s) with (k - s) in E. assert (u * Rabs (k - s) <= u * (2 * (X + k))) by (apply Rmult_le_compat_l; lra). replace (rnd (k - s) - (k - S0)) with ((rnd (k - s) - (k - s)) + (S0 - s)) by ring. eapply Rle_trans; [apply Rabs_triang|]. assert (Rabs (S0 - s) <= ta * X) by (apply Rabs_le; lra). lra. }
    assert (E0 : 0 <= (ta + 2 * u) * (X + k)) by (apply Rmult_le_pos; lra). assert (Z : Rabs (val zero - 0) <= (ta + 2 * u) * (X + k)) by (change (val zero) with 0; rewrite Rminus_0_r, Rabs_R0; exact E0).
    unfold payoff64, vanilla64, FdModel.payoff, fpos. change (f_tf m) with (h_tf g). change (f_k m) with k. destruct (h_tf g).
    - destruct (fsub_R _ _ FE FKK C1) as [FS VS]. destruct (fmax_fin _ zero FS eq_refl) as [FM VM]. split; [exact FM|]. rewrite VM, VS. split; [apply max_close; assumption|]. unfold Rmax. destruct (Rle_dec (S0 - k) 0); lra.
    - destruct (fsub_R _ _ FKK FE C2) as [FS VS]. destruct (fmax_fin _ zero FS eq_refl) as [FM VM]. split; [exact FM|]. rewrite VM, VS. split; [apply max_close; assumption|]. unfold Rmax. destruct (Rle_dec (k - S0) 0); lra.
  Qed.
  (** rate times time *)
  Lemma rate_time y Y : ap 2 164 y Y -> Y <= f_T m ->
    fin (fmul (h_r g) y) /\ Rabs (val (fmul (h_r g) y) - f_r m * Y) <= om /\ fin (fmul (fneg (h_r g)) y) /\ Rabs (val (fmul (fneg (h_r g)) y) - - f_r m * Y) <= om /\ 0 <= f_r m * Y <= f_r m * f_T m.
  Proof.
    intros (FY & WY & RY) HT. destruct (within_abs _ _ _ WY (few_small 2 ltac:(lia))) as [EY BY]. replace (INR 2) with 2 in EY by (cbn; lra). pose proof (rg_r g RG) as RR. assert (FR : fin (h_r g)) by apply RG. change (f_r m) with (val (h_r g)). set (r := val (h_r g)) in *. set (T := f_T m) in *. set (z := val y) in *.
    assert (YP : 0 < Y) by (destruct WY; assumption). pose proof u_pos as U0. pose proof u_tiny as U1. assert (RY0 : 0 < r * Y) by (apply Rmult_lt_0_compat; lra). assert (RYT : r * Y <= r * T) by (apply Rmult_le_compat_l; lra).
    assert (CB : Rabs (r * z) <= bpow radix2 265). { rewrite Rabs_pos_eq by (apply Rmult_le_pos; lra). apply Rle_trans with (bpow radix2 100 * bpow radix2 165); [|rewrite <- bpow_plus; right; reflexivity]. apply Rmult_le_compat; try lra. replace 165%Z with (164 + 1)%Z by lia. rewrite dbl_bpow. lra. }
    destruct (rnd_cap 265 _ ltac:(lia) CB) as [_ C]. destruct (fmul_R _ _ FR FY C) as [F1 V1]. fold r z in V1.
    assert (NEG : val (fneg (h_r g)) * z = - (r * z)) by (rewrite fneg_R; fold r; ring). assert (CN : Rabs (rnd (val (fneg (h_r g)) * val y)) < fmaxR) by (fold z; rewrite NEG, rnd_opp, Rabs_Ropp; exact C).
    destruct (fmul_R (fneg (h_r g)) y (proj2 (fneg_fin _) FR) FY CN) as [F2 V2]. fold z in V2. rewrite NEG, rnd_opp in V2.
    assert (E : Rabs (rnd (r * z) - r * Y) <= om).
    { pose proof (rnd_abs_err (r * z)) as E. rewrite (Rabs_pos_eq (r * z)) in E by (apply Rmult_le_pos; lra). assert (Z2 : r * z <= 2 * (r * Y)) by (assert (r * z <= r * (2 * Y)) by (apply Rmult_le_compat_l; lra); lra).
      assert (D : Rabs (r * z - r * Y) <= 8 * u * (r * Y)). { replace (r * z - r * Y) with (r * (z - Y)) by ring. rewrite Rabs_mult, (Rabs_pos_eq r) by lra. replace (8 * u * (r * Y)) with (r * (4 * 2 * u * Y)) by ring. apply Rmult_le_compat_l; lra. }
      replace (rnd (r * z) - r * Y) with ((rnd (r * z) - r * z) + (r * z - r * Y)) by ring. eapply Rle_trans; [apply Rabs_triang|]. assert (u * (r * z) <= u * (2 * (r * Y))) by (apply Rmult_le_compat_l; lra). assert (u * (r * Y) <= u * (r * T)) by (apply Rmult_le_compat_l; lra). change (om) with (10 * u * (r * T) + eta). lra. }
    split; [exact F1|]. split; [rewrite V1; exact E|]. split; [exact F2|]. split; [|lra]. rewrite V2. replace (- rnd (r * z) - - r * Y) with (- (rnd (r * z) - r * Y)) by ring. rewrite Rabs_Ropp. exact E.
  Qed.
  Lemma time_close t : (1 <= t <= f_nt m)%nat -> ap 2 164 (tau64 g t) (INR t * (f_T m / INR (f_nt m))) /\ INR t * (f_T m / INR (f_nt m)) <= f_T m.
  Proof.
    intros Ht. pose proof (rg_nt g RG) as NT. change (f_nt m) with (h_nt g) in *. split.
    - unfold tau64. change (f_T m / INR (h_nt g)) with (dt m). apply (ap_mul 0 32 _ _ 1 132); [apply ap_count; lia|apply ap_dt, RG|apply few_small; lia|lia].
    - assert (I1 : INR t <= INR (h_nt g)) by (apply le_INR; lia). assert (I2 : 0 < INR (h_nt g)) by (apply lt_0_INR; lia). destruct (exact_valid g RG) as (_ & _ & _ & _ & T & _). fold m in T. apply Rmult_le_reg_r with (INR (h_nt g)); [exact I2|]. replace (INR t * (f_T m / INR (h_nt g)) * INR (h_nt g)) with (INR t * f_T m) by (field; lra). nra.
  Qed.
  Let th := 2 * (mu + om).
  Lemma th_small : 0 <= th <= / 10. Proof. unfold th. pose proof om_small. lra. Qed.
  Lemma grow_close y Y : ap 2 164 y Y -> Y <= f_T m -> fin (exp64 (fmul (h_r g) y)) /\ Rabs (val (exp64 (fmul (h_r g) y)) - exp (f_r m * Y)) <= th * exp (f_r m * Y) /\ 0 < exp (f_r m * Y) <= exp (f_r m * f_T m).
  Proof.
    intros A B. destruct (rate_time y Y A B) as (F & E & _ & _ & R). pose proof om_small as O. destruct (exp_close _ _ _ F E ltac:(lra) ltac:(rewrite Rabs_pos_eq; lra)) as [F' E']. split; [exact F'|]. split; [exact E'|]. split; [apply exp_pos|apply exp_le; lra].
  Qed.
  Lemma shrink_close y Y : ap 2 164 y Y -> Y <= f_T m -> fin (exp64 (fmul (fneg (h_r g)) y)) /\ Rabs (val (exp64 (fmul (fneg (h_r g)) y)) - exp (- f_r m * Y)) <= th /\ 0 < exp (- f_r m * Y) <= 1.
  Proof.
    intros A B. destruct (rate_time y Y A B) as (_ & _ & F & E & R). pose proof om_small as O. assert (RB : Rabs (- f_r m * Y) <= 601) by (rewrite Ropp_mult_distr_l_reverse, Rabs_Ropp, Rabs_pos_eq; lra). destruct (exp_close _ _ _ F E ltac:(lra) RB) as [F' E']. split; [exact F'|].
    assert (EB : 0 < exp (- f_r m * Y) <= 1) by (split; [apply exp_pos|rewrite <- exp_0; apply exp_le; lra]). split; [|exact EB]. apply Rle_trans with (1 := E'). fold th. pose proof th_small. nra.
  Qed.
  Let eps := (6 * mu + 4 * nu + 2 * om + 10 * u) * M + 2 * eta.
  Lemma boundary_close t : (1 <= t <= f_nt m)%nat -> fin (boundary64 exp64 ln64 g t) /\ Rabs (val (boundary64 exp64 ln64 g t) - exact_boundary m t) <= eps /\ Rabs (exact_boundary m t) <= M.
  Proof.
    intros Ht. destruct (time_close t Ht) as [TA TB]. destruct (shrink_close _ _ TA TB) as (FD & ED & BD). unfold boundary64, exact_boundary. change (f_tf m) with (h_tf g). set (tau := INR t * (f_T m / INR (f_nt m))) in *.
    set (d := exp64 (fmul (fneg (h_r g)) (tau64 g t))) in *. set (D := exp (- f_r m * tau)) in *.
    destruct ends_close as (F1 & F2 & Q1 & Q2 & _). pose proof nu_0 as N0. pose proof u_pos as U0. pose proof u_tiny as U1. pose proof eta_pos as E0. pose proof eta_tiny as E1. pose proof w_pos as W0. pose proof th_small as TH. pose proof om_small as OM.
    assert (NB : lam + (4 * INR K + 14) * u * w <= nu). { unfold nu. apply Rplus_le_compat_l. apply Rmult_le_compat_r; [lra|]. apply Rmult_le_compat_r; [lra|]. pose proof (pos_INR K). lra. }
    destruct ends_exact as [XI XA]. pose proof (Rle_abs (ln (f_s m))) as A1. pose proof (Rle_abs (- ln (f_s m))) as A2. rewrite Rabs_Ropp in A2.
    assert (RI : Rabs (x_min m) <= 601) by (rewrite XI; apply Rabs_le; lra). assert (RA : Rabs (x_max m) <= 601) by (rewrite XA; apply Rabs_le; lra).
    destruct (exp_close _ _ nu F1 (Rle_trans _ _ _ Q1 NB) NU RI) as [FI EI]. destruct (exp_close _ _ nu F2 (Rle_trans _ _ _ Q2 NB) NU RA) as [FA EA]. fold X in EA.
    assert (IX : exp (x_min m) <= X) by (apply exp_le; rewrite XI, XA; lra). pose proof (exp_pos (x_min m)) as IP. set (I := exp (x_min m)) in *. pose proof k_pos as KP. pose proof X_pos as XP. pose proof XM as XM'.
    set (ta := 2 * (mu + nu)) in *. assert (TA' : 0 <= ta <= / 10) by (unfold ta; lra). assert (EI' : Rabs (val (exp64 (x_min64 ln64 g)) - I) <= ta * X) by (apply Rle_trans with (1 := EI); apply Rmult_le_compat_l; lra). clear EI.
    assert (FKK : fin (h_k g)) by apply RG. change (f_k m) with (val (h_k g)) in *. set (k := val (h_k g)) in *. set (xi := val (exp64 (x_min64 ln64 g))) in *. set (xa := val (exp64 (x_max64 ln64 g))) in *. set (e := val d) in *.
    (* the discounted strike *)
    assert (EB : Rabs e <= 2) by (apply Rabs_le_inv in ED; apply Rabs_le; lra). assert (KE : Rabs (k * e) <= 2 * k) by (rewrite Rabs_mult, (Rabs_pos_eq k), Rmult_comm by lra; apply Rmult_le_compat_r; lra).
    assert (B901 : 2 * M <= bpow radix2 901) by (replace 901%Z with (900 + 1)%Z by lia; rewrite dbl_bpow; lra). assert (B902 : bpow radix2 902 = 2 * bpow radix2 901) by (replace 902%Z with (901 + 1)%Z by lia; apply dbl_bpow). assert (B1 : 1 <= bpow radix2 901) by (change 1 with (bpow radix2 0); apply bpow_le; lia).
    destruct (rnd_cap 901 (k * e) ltac:(lia) ltac:(lra)) as [_ C1]. destruct (fmul_R _ _ FKK FD C1) as [FP VP]. fold k e in VP. pose proof (rnd_abs_err (k * e)) as EP. rewrite <- VP in EP. set (p := val (fmul (h_k g) d)) in *.
    assert (UK : u * Rabs (k * e) <= u * (2 * k)) by (apply Rmult_le_compat_l; lra). assert (KD : Rabs (k * e - k * D) <= th * k). { replace (k * e - k * D) with ((e - D) * k) by ring. rewrite Rabs_mult, (Rabs_pos_eq k) by lra. apply Rmult_le_compat_r; lra. }
    assert (KD0 : 0 <= k * D <= k) by (split; [apply Rmult_le_pos; lra|rewrite <- (Rmult_1_r k) at 2; apply Rmult_le_compat_l; lra]).
    assert (PE : Rabs (p - k * D) <= th * k + 2 * u * k + eta). { replace (p - k * D) with ((p - k * e) + (k * e - k * D)) by ring. eapply Rle_trans; [apply Rabs_triang|]. lra. }
    assert (TX : ta * X <= / 10 * X) by (apply Rmult_le_compat_r; lra). assert (TK : th * k <= / 10 * k) by (apply Rmult_le_compat_r; lra). assert (UK2 : u * k <= / 10 * k) by (apply Rmult_le_compat_r; lra). assert (UX0 : 0 <= u * X) by (apply Rmult_le_pos; lra). assert (UK0 : 0 <= u * k) by (apply Rmult_le_pos; lra).
    assert (T1 : 0 <= ta * k) by (apply Rmult_le_pos; lra). assert (T2 : 0 <= th * X) by (apply Rmult_le_pos; lra). assert (UE : u * eta <= eta) by (rewrite <- (Rmult_1_l eta) at 2; apply Rmult_le_compat_r; lra).
    assert (GOAL : (ta + th + 4 * u) * (X + k) + 2 * eta <= eps). { unfold eps. apply Rplus_le_compat_r. apply Rmult_le_compat; try lra. - unfold ta, th. lra. }
    apply Rabs_le_inv in PE. apply Rabs_le_inv in EA. apply Rabs_le_inv in EI'.
    assert (Z1 : Rabs (xa - p) <= 2 * (X + k) + eta) by (apply Rabs_le; lra). assert (Z2 : Rabs (p - xi) <= 2 * (X + k) + eta) by (apply Rabs_le; lra).
    destruct (rnd_cap 902 (xa - p) ltac:(lia) ltac:(lra)) as [_ C2]. destruct (rnd_cap 902 (p - xi) ltac:(lia) ltac:(lra)) as [_ C3].
    assert (MZ1 : u * Rabs (xa - p) <= u * (2 * (X + k) + eta)) by (apply Rmult_le_compat_l; lra). assert (MZ2 : u * Rabs (p - xi) <= u * (2 * (X + k) + eta)) by (apply Rmult_le_compat_l; lra).
    destruct (h_tf g).
    - destruct (fsub_R _ _ FA FP C2) as [FS VS]. split; [exact FS|]. rewrite VS. fold xa p X. split; [|apply Rabs_le; lra]. pose proof (rnd_sum_err xa (- p) (val_fmt _) (fmt_opp _ (val_fmt _))) as E. change (xa + - p) with (xa - p) in E. apply Rle_trans with (2 := GOAL). apply Rabs_le_inv in E. apply Rabs_le. lra.
    - destruct (fsub_R _ _ FP FI C3) as [FS VS]. split; [exact FS|]. rewrite VS. fold xi p I. split; [|apply Rabs_le; lra]. pose proof (rnd_sum_err p (- xi) (val_fmt _) (fmt_opp _ (val_fmt _))) as E. change (p + - xi) with (p - xi) in E. apply Rle_trans with (2 := GOAL). apply Rabs_le_inv in E. apply Rabs_le. lra.
  Qed.
  Lemma eps_payoff : (2 * (mu + nu) + 2 * u) * (X + f_k m) <= eps.
  Proof. unfold eps. pose proof XM. pose proof X_pos. pose proof k_pos. pose proof nu_0. pose proof om_small. pose proof u_pos. pose proof eta_pos. apply Rle_trans with ((6 * mu + 4 * nu + 2 * om + 10 * u) * M); [apply Rmult_le_compat; lra|lra]. Qed.
  Lemma exercise_close t i : (1 <= t <= f_nt m)%nat -> (1 <= i < f_np m)%nat -> fin (exercise64 exp64 ln64 g t i) /\ Rabs (val (exercise64 exp64 ln64 g t i) - exact_exercise m t i) <= eps /\ Rabs (exact_exercise m t i) <= M.
  Proof.
    intros Ht Hi. destruct (time_close t Ht) as [TA TB]. destruct (grow_close _ _ TA TB) as (FG & EG & BG). destruct (payoff_close i Hi) as (FP & EP & BP). unfold exercise64, exact_exercise. set (tau := INR t * (f_T m / INR (f_nt m))) in *.
    set (a := exp64 (fmul (h_r g) (tau64 g t))) in *. set (G := exp (f_r m * tau)) in *. set (b := payoff64 g (exp64 (node64 ln64 g i))) in *. set (P := FdModel.payoff m (exp (node m i))) in *. set (GT := exp (f_r m * f_T m)) in *.
    pose proof nu_0 as N0. pose proof u_pos as U0. pose proof u_tiny as U1. pose proof eta_pos as E0. pose proof th_small as TH. pose proof om_small as OM. pose proof k_pos as KP. pose proof X_pos as XP.
    set (Q := X + f_k m) in *. assert (QP : 0 < Q) by (unfold Q; lra). assert (GQ : G * Q <= M) by (unfold M; fold GT Q; apply Rmult_le_compat_r; lra). assert (GQ0 : 0 < G * Q) by (apply Rmult_lt_0_compat; lra).
    set (ta := 2 * (mu + nu) + 2 * u) in *. assert (TA' : 0 <= ta <= / 10) by (unfold ta; lra).
    assert (AB : Rabs (val a) <= 2 * G). { apply Rabs_le_inv in EG. assert (th * G <= / 10 * G) by (apply Rmult_le_compat_r; lra). apply Rabs_le. lra. }
    assert (BB : Rabs (val b) <= 2 * Q). { apply Rabs_le_inv in EP. assert (ta * Q <= / 10 * Q) by (apply Rmult_le_compat_r; lra). apply Rabs_le. lra. }
    assert (PB : Rabs (val a * val b) <= 4 * (G * Q)). { rewrite Rabs_mult. apply Rle_trans with (2 * G * (2 * Q)); [apply Rmult_le_compat; try assumption; apply Rabs_pos|lra]. }
    assert (DE : Rabs (val a * val b - G * P) <= (th + 2 * ta) * (G * Q)).
    { replace (val a * val b - G * P) with ((val a - G) * P + val a * (val b - P)) by ring. eapply Rle_trans; [apply Rabs_triang|]. rewrite !Rabs_mult, (Rabs_pos_eq P) by lra.
      assert (S1 : Rabs (val a - G) * P <= th * G * Q) by (apply Rmult_le_compat; try lra; apply Rabs_pos). assert (S2 : Rabs (val a) * Rabs (val b - P) <= 2 * G * (ta * Q)) by (apply Rmult_le_compat; try lra; apply Rabs_pos). lra. }
    assert (B902 : 4 * M <= bpow radix2 902) by (replace 902%Z with (2 + 900)%Z by lia; rewrite bpow_plus; change (bpow radix2 2) with 4; lra).
    destruct (rnd_cap 902 (val a * val b) ltac:(lia) ltac:(lra)) as [_ C]. destruct (fmul_R _ _ FG FP C) as [F V]. split; [exact F|]. rewrite V. split.
    - pose proof (rnd_abs_err (val a * val b)) as ER. assert (UR : u * Rabs (val a * val b) <= u * (4 * (G * Q))) by (apply Rmult_le_compat_l; lra).
      replace (rnd (val a * val b) - G * P) with ((rnd (val a * val b) - val a * val b) + (val a * val b - G * P)) by ring. eapply Rle_trans; [apply Rabs_triang|]. apply Rle_trans with ((th + 2 * ta + 4 * u) * (G * Q) + eta); [lra|].
      unfold eps. apply Rplus_le_compat; [|lra]. apply Rmult_le_compat; try lra. unfold th, ta. lra.
    - rewrite Rabs_pos_eq by (apply Rmult_le_pos; lra). apply Rle_trans with (2 := GQ). apply Rmult_le_compat_l; lra.
  Qed.
  Lemma discount_close : fin (discount64 exp64 g) /\ Rabs (val (discount64 exp64 g) - exp (- f_r m * f_T m)) <= th.
  Proof.
    destruct (ap_T g RG) as (F & W & R). assert (A : ap 2 164 (h_T g) (f_T m)) by (apply (ap_weak 2 100 164); [lia|]; split; [exact F|]; split; [apply (within_weak 0 2); [lia|exact W]|exact R]). destruct (shrink_close _ _ A (Rle_refl _)) as (FD & ED & _). split; assumption.
  Qed.
  Hypothesis ST : stable Explicit m.
  Let delta := (40 * INR K + 200 + 20 * dx m) * u.
  Lemma all_accurate : accurate exp64 ln64 g m delta eps th M.
  Proof.
    destruct (weights64_accurate ln64 g K RG LF LB FK ST) as (W1 & W2 & W3 & W4). constructor; [repeat split|repeat split; assumption|exact W4| |exact boundary_close|intros _; exact exercise_close|exact discount_close].
    intros i Hi. destruct (payoff_close i Hi) as (F & E & B). split; [exact F|]. split; [apply Rle_trans with (1 := E), eps_payoff|]. rewrite Rabs_pos_eq by lra. pose proof XM. lra.
  Qed.
End Price64.

(** With an exponential accurate to [mu] and a logarithm accurate to [lam], the computed price
    differs from the price of the exact scheme by at most the largest value [M] on the grid times
    the errors of the library functions, plus a multiple of the unit roundoff that grows with the
    number of time steps. *)
Theorem explicit64_accurate : forall exp64 ln64 g K mu lam, ranged g ->
  let m := exactR g in let w := 5 * f_v m * sqrt (f_T m) in let nu := lam + (21 * INR K + 80) * u * w in
  let M := exp (f_r m * f_T m) * (exp (ln (f_s m) + w) + f_k m) in let c := (40 * INR K + 204 + 20 * dx m) * u in
  stable Explicit m ->
  fin (ln64 (h_s g)) -> Rabs (val (ln64 (h_s g)) - ln (f_s m)) <= lam ->
  (forall x, fin x -> Rabs (val x) <= 610 -> fin (exp64 x) /\ Rabs (val (exp64 x) - exp (val x)) <= mu * exp (val x)) ->
  Rabs (ln (f_s m)) + lam <= INR K * w -> INR (4 * K + 18) * u <= / 100 -> 0 <= mu <= / 100 -> nu <= / 100 ->
  Rabs (ln (f_s m)) + w <= 600 -> f_r m * f_T m <= 600 -> M <= bpow radix2 900 -> INR (f_nt m) * c <= / 11 ->
  exists p P, explicit64 exp64 ln64 g = Ret p /\ explicit m = Ret P /\ fin p /\
    Rabs (val p - P) <= 2 * M * (8 * mu + 4 * nu + (40 * (f_r m * f_T m) + 16) * u + INR (f_nt m) * c) + (12 * INR (f_nt m) + 8) * eta.
Proof.
  intros exp64 ln64 g K mu lam RG m w nu M c ST LF LN EXP LK FK MU NU SPAN RT MB KAP.
  assert (LB : Rabs (val (ln64 (h_s g))) <= INR K * width g). { change (width g) with w. change (f_s m) with (val (h_s g)) in *. replace (val (ln64 (h_s g))) with (ln (val (h_s g)) + (val (ln64 (h_s g)) - ln (val (h_s g)))) by ring. eapply Rle_trans; [apply Rabs_triang|]. lra. }
  pose proof (all_accurate exp64 ln64 g K mu lam RG LF LB FK LN EXP MU NU SPAN RT MB ST) as ACC. fold m in ACC. set (om := 10 * u * (f_r m * f_T m) + eta) in ACC. change (width g) with w in ACC. fold nu in ACC. change (exp (x_max m)) with (exp (ln (f_s m) + w)) in ACC. fold M in ACC.
  pose proof (om_small g RG RT) as OM. change (0 <= om <= / 1000) in OM.
  assert (N0 : 0 <= nu) by (apply (nu_0 ln64 g K lam RG LN)). assert (MP : 0 < M). { unfold M. apply Rmult_lt_0_compat; [apply exp_pos|]. pose proof (exp_pos (ln (f_s m) + w)). pose proof (rg_k g RG). change (f_k m) with (val (h_k g)). lra. }
  pose proof u_pos as U0. pose proof u_9 as U1. pose proof eta_pos as E0. pose proof eta_u as E1.
  assert (NT : 1 <= INR (f_nt m) <= IZR (2 ^ 32)). { pose proof (rg_nt g RG) as H. change (f_nt m) with (h_nt g). rewrite INR_IZR_INZ. split; [apply (IZR_le 1)|apply IZR_le]; lia. }
  assert (NE : 6 * INR (f_nt m) * eta <= 1). { assert (eta <= / 10000000000000000). { apply Rle_trans with (1 := E1). assert (u <= / 9000000000000000) by (unfold u; apply Rinv_le_contravar; [lra|]; apply IZR_le; vm_compute; discriminate). lra. } assert (IZR (2 ^ 32) <= 5000000000) by (apply IZR_le; vm_compute; discriminate). assert (INR (f_nt m) * eta <= 5000000000 * / 10000000000000000) by (apply Rmult_le_compat; lra). lra. }
  set (eps := (6 * mu + 4 * nu + 2 * om + 10 * u) * M + 2 * eta) in ACC.
  assert (EB : eps <= M + 1). { unfold eps. assert ((6 * mu + 4 * nu + 2 * om + 10 * u) * M <= 1 * M) by (apply Rmult_le_compat_r; lra). lra. }
  assert (CAP : M + eps + 6 * INR (f_nt m) * eta <= bpow radix2 999). { apply Rle_trans with (4 * bpow radix2 900); [pose proof (bpow_le radix2 0 900 ltac:(lia)) as B; change (bpow radix2 0) with 1 in B; lra|]. change 4 with (bpow radix2 2). rewrite <- bpow_plus. apply bpow_le. lia. }
  assert (CE : (40 * INR K + 200 + 20 * dx m) * u + 4 * u = c) by (unfold c; ring).
  destruct (explicit64_linear exp64 ln64 g m _ _ _ M (exact_valid g RG) ST ACC) as (p & P & H1 & H2 & H3 & H4); [rewrite CE; exact KAP|lra|exact CAP|].
  exists p, P. split; [exact H1|]. split; [exact H2|]. split; [exact H3|]. apply Rle_trans with (1 := H4). rewrite CE. unfold eps.
  set (q := INR (f_nt m) * c). set (n := INR (f_nt m)). set (rT := f_r m * f_T m) in *.
  assert (OM2 : 4 * om <= (40 * rT + 2) * u) by (unfold om; lra).
  apply Rle_trans with (2 * M * (8 * mu + 4 * nu + 4 * om + 14 * u + q) + (12 * n + 8) * eta); [right; ring|]. apply Rplus_le_compat_r. apply Rmult_le_compat_l; lra.
Qed.
Print Assumptions explicit64_accurate.

(** ** The hypotheses are met *)
Lemma exp_mul n : exp (INR n) = exp 1 ^ n.
Proof. induction n as [|n IH]; [apply exp_0|]. rewrite S_INR, exp_plus, IH. cbn [pow]. ring. Qed.
Lemma exp_610 : exp 610 <= bpow radix2 970.
Proof.
  replace 610 with (INR 610) by (rewrite INR_IZR_INZ; reflexivity). rewrite exp_mul. apply Rle_trans with (3 ^ 610); [apply pow_incr; split; [apply Rlt_le, exp_pos|apply exp_le_3]|].
  change (bpow radix2 970) with (IZR (2 ^ 970)). replace (3 ^ 610) with (IZR (3 ^ 610)) by (change 610%Z with (Z.of_nat 610); rewrite <- pow_IZR; reflexivity). apply IZR_le. vm_compute. discriminate.
Qed.
(** a correctly rounded exponential is accurate to the unit roundoff *)
Lemma nearest_big x : bpow radix2 (-970) <= x <= bpow radix2 970 -> fin (nearest64 x) /\ Rabs (val (nearest64 x) - x) <= u * x.
Proof.
  intros [L B]. pose proof (bpow_gt_0 radix2 (-970)) as P. destruct (rnd_cap 970 x ltac:(lia)) as [_ C]; [rewrite Rabs_pos_eq; lra|].
  assert (E : rnd (IZR (ZnearestE (scaled_mantissa radix2 F64Base.F x)) * bpow radix2 (cexp radix2 F64Base.F x)) = rnd x) by (apply rnd_id; exact (rnd_fmt x)).
  destruct (lit_R (ZnearestE (scaled_mantissa radix2 F64Base.F x)) (cexp radix2 F64Base.F x)) as [A V]; [rewrite E; exact C|]. split; [exact A|]. unfold nearest64. rewrite V, E.
  destruct (relative_error_N_FLT_ex radix2 (-1074) 53 eq_refl (fun z => negb (Z.even z)) x) as (e & Q & R). { rewrite Rabs_pos_eq by lra. apply Rle_trans with (2 := L). apply bpow_le. lia. }
  change (rnd x = x * (1 + e)) in R. assert (E' : Rabs e <= u) by (eapply Rle_trans; [exact Q|]; right; rewrite <- u_ro_u; reflexivity). rewrite R. replace (x * (1 + e) - x) with (e * x) by ring. rewrite Rabs_mult, (Rabs_pos_eq x) by lra. apply Rmult_le_compat_r; lra.
Qed.
Lemma nearest_faithful : faithful (fun x => nearest64 (exp (val x))) u.
Proof.
  intros x Fx B. apply Rabs_le_inv in B. apply nearest_big. split; [|apply Rle_trans with (2 := exp_610); apply exp_le; lra].
  apply Rle_trans with (exp (- (610))); [|apply exp_le; lra]. rewrite exp_Ropp. change (-970)%Z with (- (970))%Z. rewrite bpow_opp. apply Rinv_le_contravar; [apply exp_pos|exact exp_610].
Qed.
(** the put of [weights64_case], with correctly rounded functions: its price is right to ten
    decimal places *)
Example explicit64_accurate_case : exists p P, explicit64 (fun x => nearest64 (exp (val x))) grid_ln grid64 = Ret p /\ explicit (exactR grid64) = Ret P /\ fin p /\ Rabs (val p - P) <= / 10000000000.
Proof.
  pose proof grid_exact as GE. pose proof ln_2_bounds as L2. destruct grid_ln_R as (LF & LB & LN). pose proof u_pos as U0. pose proof eta_pos as E0. pose proof eta_u as E1.
  assert (U1 : u <= / 9000000000000000) by (unfold u; apply Rinv_le_contravar; [lra|]; apply IZR_le; vm_compute; discriminate).
  destruct weights64_case as (_ & _ & DX & _).
  destruct (explicit64_accurate (fun x => nearest64 (exp (val x))) grid_ln grid64 1 u (2 * u) grid_ranged) as (p & P & H1 & H2 & H3 & H4); try exact grid_stable; try exact LF; try exact nearest_faithful; try (apply (few_small 22); lia); rewrite ?DX, ?GE in *; cbn [f_s f_k f_r f_v f_T f_nt f_np] in *; rewrite ?sqrt_1 in *; change (INR 1) with 1 in *; rewrite ?(Rabs_pos_eq (ln 2)) in * by lra; try lra.
  - exact LN.
  - apply Rle_trans with (4 * (28 * 4)).
    + assert (exp (/ 16 * 1) <= 3) by (apply Rle_trans with (exp 1); [apply exp_le; lra|apply exp_le_3]). assert (exp (ln 2 + 5 * / 4 * 1) <= 27). { apply Rle_trans with (exp (INR 3)); [apply exp_le; cbn; lra|]. rewrite exp_mul. replace 27 with (3 ^ 3) by ring. apply pow_incr. split; [apply Rlt_le, exp_pos|apply exp_le_3]. }
      pose proof (exp_pos (/ 16 * 1)). pose proof (exp_pos (ln 2 + 5 * / 4 * 1)). nra.
    + pose proof (bpow_le radix2 10 900 ltac:(lia)) as B. change (bpow radix2 10) with 1024 in B. lra.
  - exists p, P. split; [exact H1|]. split; [exact H2|]. split; [exact H3|]. apply Rle_trans with (1 := H4).
    assert (exp (/ 16 * 1) <= 3) by (apply Rle_trans with (exp 1); [apply exp_le; lra|apply exp_le_3]). assert (exp (ln 2 + 5 * / 4 * 1) <= 27). { apply Rle_trans with (exp (INR 3)); [apply exp_le; cbn; lra|]. rewrite exp_mul. replace 27 with (3 ^ 3) by ring. apply pow_incr. split; [apply Rlt_le, exp_pos|apply exp_le_3]. }
    pose proof (exp_pos (/ 16 * 1)). pose proof (exp_pos (ln 2 + 5 * / 4 * 1)). set (M := exp (/ 16 * 1) * (exp (ln 2 + 5 * / 4 * 1) + 1)). assert (MB : 0 <= M <= 84) by (unfold M; split; nra).
    set (z := 8 * u + 4 * _ + _ + _). assert (Z : 0 <= z <= 1000 * u) by (unfold z; lra). assert (2 * M * z <= 168 * (1000 * u)) by (apply Rmult_le_compat; lra). lra.
Qed.
