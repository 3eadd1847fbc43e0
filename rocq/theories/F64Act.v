(** C109: the activation functions computed with binary64 arithmetic. *)
From Coq Require Import ZArith Reals Lra Lia List Bool Psatz.
From Flocq Require Import Core.Core IEEE754.BinarySingleNaN Relative.
From Verif Require Import Res F64Model F64Base F64Sum F64Order F64RootModel F64Root F64QuadModel F64Quad F64Day F64Fd F64FdGrid F64FdPrice F64ActModel.
From Verif Require ActModel.
Import ListNotations.
Open Scope R_scope.

(** ** One plus a non-negative number never overflows *)
Lemma one_plus e : fin e -> 0 <= val e -> fin (fadd one e) /\ val (fadd one e) = rnd (1 + val e) /\ 1 <= val (fadd one e).
Proof.
  intros Fe P. destruct one_R as [F1 V1].
  assert (C : Rabs (rnd (1 + val e)) < fmaxR).
  { destruct (Rle_lt_dec (val e) (bpow radix2 1000)) as [L|L].
    - apply (rnd_cap 1001); [lia|]. rewrite Rabs_pos_eq by lra. replace 1001%Z with (1000 + 1)%Z by lia. rewrite dbl_bpow. pose proof (bpow_le radix2 0 1000 ltac:(lia)) as B. change (bpow radix2 0) with 1 in B. lra.
    - assert (U : rnd (1 + val e) <= val e).
      { apply round_N_le_midp; [typeclasses eauto|apply val_fmt|]. pose proof (bpow_gt_0 radix2 1000). rewrite succ_eq_pos by lra.
        assert (UL : 2 < ulp radix2 F (val e)). { apply Rlt_le_trans with (ulp radix2 F (bpow radix2 1000)); [rewrite ulp_bpow; change 2 with (bpow radix2 1); apply bpow_lt; reflexivity|]. apply ulp_le; [typeclasses eauto|typeclasses eauto|]. rewrite !Rabs_pos_eq by lra. lra. } lra. }
      assert (L0 : 0 <= rnd (1 + val e)) by (rewrite <- rnd_0; apply rnd_le; lra). rewrite Rabs_pos_eq by exact L0. pose proof (val_lt e) as V. rewrite Rabs_pos_eq in V by lra. lra. }
  destruct (fadd_R one e F1 Fe) as [A B]; [rewrite V1; exact C|]. rewrite V1 in B. split; [exact A|]. split; [exact B|]. rewrite B. apply rnd_ge; [apply (int_fmt 1); cbn; lia|lra].
Qed.
Lemma inv_range d : 1 <= d -> Rabs (rnd (1 / d)) < fmaxR /\ 0 <= rnd (1 / d) <= 1.
Proof.
  intros H. assert (Q : 0 <= 1 / d <= 1). { split; [apply Rlt_le, Rdiv_lt_0_compat; lra|]. apply Rmult_le_reg_r with d; [lra|]. unfold Rdiv. rewrite Rmult_assoc, Rinv_l by lra. lra. }
  assert (R : 0 <= rnd (1 / d) <= 1) by (split; [rewrite <- rnd_0; apply rnd_le; lra|apply rnd_le_fmt; [apply (int_fmt 1); cbn; lia|lra]]). split; [|exact R]. rewrite Rabs_pos_eq by lra. apply Rle_lt_trans with 1; [lra|]. change 1 with (bpow radix2 0). apply bpow_lt. lia.
Qed.
(** what the IEEE standard asks of the exponential outside its rounding: a number for a number, never
    negative, in order *)
Record exp_order (exp64 : f64 -> f64) : Prop := {
  exp_num : forall x, num x -> num (exp64 x) /\ fle zero (exp64 x) = true;
  exp_mono : forall x y, fle x y = true -> fle (exp64 x) (exp64 y) = true;
  exp_nan : exp64 nan = nan
}.
Lemma nonneg_cases e : num e -> fle zero e = true -> e = pinf \/ (fin e /\ 0 <= val e).
Proof.
  intros N H. destruct e as [s|s| |s mm ee Hb].
  - right. split; [reflexivity|cbn; lra].
  - destruct s; [discriminate|left; reflexivity].
  - discriminate.
  - right. split; [reflexivity|]. apply (fle_R zero (B754_finite s mm ee Hb) eq_refl eq_refl) in H. exact H.
Qed.
Lemma fneg_num x : num x -> num (fneg x). Proof. destruct x; intros H; try reflexivity; discriminate. Qed.
Lemma fneg_ext x : num x -> ext (fneg x) = - ext x.
Proof. intros H. destruct x as [s|s| |s mm ee Hb]; try discriminate; [symmetry; apply Ropp_0|destruct s; [symmetry; apply Ropp_involutive|reflexivity]|]. change (ext (fneg (B754_finite s mm ee Hb))) with (val (fneg (B754_finite s mm ee Hb))). rewrite fneg_R. reflexivity. Qed.
Lemma fneg_fle x y : fle x y = true -> fle (fneg y) (fneg x) = true.
Proof. intros H. destruct (fle_num x y H) as [X Y]. apply (fle_ext x y X Y) in H. apply fle_ext; try (apply fneg_num; assumption). rewrite !fneg_ext by assumption. lra. Qed.
Lemma inv_one_pinf : fdiv one (fadd one pinf) = zero. Proof. apply same. vm_compute. reflexivity. Qed.

(** ** Sigmoid *)
(** for every number, infinite ones included, sigmoid is a number between zero and one; it never
    decreases; NaN gives NaN *)
Theorem sigmoid64_range : forall exp64, exp_order exp64 ->
  (forall x, num x -> fin (sigmoid64 exp64 x) /\ 0 <= val (sigmoid64 exp64 x) <= 1) /\
  (forall x y, fle x y = true -> val (sigmoid64 exp64 x) <= val (sigmoid64 exp64 y)) /\
  sigmoid64 exp64 nan = nan.
Proof.
  intros exp64 [EN EM ENN]. destruct one_R as [F1 V1].
  assert (RNG : forall x, num x -> fin (sigmoid64 exp64 x) /\ 0 <= val (sigmoid64 exp64 x) <= 1).
  { intros x X. unfold sigmoid64. destruct (EN _ (fneg_num x X)) as [N P]. destruct (nonneg_cases _ N P) as [-> | [Fe Pe]]; [rewrite inv_one_pinf; split; [reflexivity|cbn; lra]|].
    destruct (one_plus _ Fe Pe) as (FA & _ & GA). destruct (inv_range _ GA) as [C R]. destruct (fdiv_R one (fadd one (exp64 (fneg x))) F1) as [FD VD]; [lra|rewrite V1; exact C|]. rewrite V1 in VD. split; [exact FD|]. rewrite VD. exact R. }
  split; [exact RNG|]. split; [|unfold sigmoid64; change (fneg nan) with nan; rewrite ENN; reflexivity].
  intros x y H. destruct (fle_num x y H) as [X Y]. pose proof (EM _ _ (fneg_fle x y H)) as L. destruct (RNG y Y) as [_ RY].
  destruct (EN _ (fneg_num x X)) as [NX PX]. destruct (EN _ (fneg_num y Y)) as [NY PY]. unfold sigmoid64 in *.
  destruct (nonneg_cases _ NX PX) as [E | [Fx Qx]]; [rewrite E, inv_one_pinf; cbn; apply RY|].
  destruct (nonneg_cases _ NY PY) as [E | [Fy Qy]]. { exfalso. rewrite E in L. apply (fle_ext pinf _ eq_refl NX) in L. rewrite (ext_fin _ Fx) in L. change (ext pinf) with fmaxR in L. pose proof (val_lt (exp64 (fneg x))) as V. rewrite Rabs_pos_eq in V by exact Qx. lra. }
  apply (fle_R _ _ Fy Fx) in L. destruct (one_plus _ Fx Qx) as (FA & VA & GA). destruct (one_plus _ Fy Qy) as (FB & VB & GB).
  destruct (inv_range _ GA) as [CA _]. destruct (inv_range _ GB) as [CB _].
  destruct (fdiv_R one (fadd one (exp64 (fneg x))) F1) as [_ WA]; [lra|rewrite V1; exact CA|]. destruct (fdiv_R one (fadd one (exp64 (fneg y))) F1) as [_ WB]; [lra|rewrite V1; exact CB|].
  rewrite WA, WB, V1. apply rnd_le. assert (M : val (fadd one (exp64 (fneg y))) <= val (fadd one (exp64 (fneg x)))) by (rewrite VA, VB; apply rnd_le; lra). apply Rmult_le_compat_l; [lra|]. apply Rinv_le_contravar; lra.
Qed.
Print Assumptions sigmoid64_range.

Lemma quot_rel D c t : 1 <= D -> 0 <= c -> Rabs (t - D) <= c * D -> c <= / 10 -> Rabs (1 / t - 1 / D) <= 2 * c * (1 / D).
Proof.
  intros HD C H Q. apply Rabs_le_inv in H. assert (T : 9 / 10 * D <= t) by nra. assert (TP : 0 < t) by nra. replace (1 / t - 1 / D) with ((D - t) * (1 / t) * (1 / D)) by (field; lra). assert (ID : 0 < 1 / D) by (apply Rdiv_lt_0_compat; lra). assert (IT : 0 < 1 / t) by (apply Rdiv_lt_0_compat; lra).
  rewrite !Rabs_mult, (Rabs_pos_eq (1 / D)), (Rabs_pos_eq (1 / t)) by lra. apply Rmult_le_compat_r; [lra|]. apply Rle_trans with (c * D * (1 / t)); [apply Rmult_le_compat_r; [lra|]; apply Rabs_le; lra|]. replace (2 * c) with (2 * c * t * (1 / t)) by (field; lra). apply Rmult_le_compat_r; [lra|]. nra.
Qed.
Lemma one_plus_accurate exp64 mu x : faithful exp64 mu -> 0 <= mu <= / 100 -> fin x -> Rabs (val x) <= 610 ->
  let D := 1 + exp (val x) in let t := val (fadd one (exp64 x)) in fin (fadd one (exp64 x)) /\ 1 <= t /\ Rabs (t - D) <= (mu + 2 * u) * D.
Proof.
  intros E MU Fx B D t. destruct (E x Fx B) as [Fe EE]. set (X := exp (val x)) in *. pose proof (exp_pos (val x)) as P. fold X in P. pose proof u_pos as U0. pose proof u_tiny as U1.
  assert (NN : 0 <= val (exp64 x)). { apply Rabs_le_inv in EE. nra. } destruct (one_plus _ Fe NN) as (FA & VA & GA). split; [exact FA|]. split; [exact GA|]. unfold t. rewrite VA.
  pose proof (rnd_sum_err 1 (val (exp64 x)) ltac:(apply (int_fmt 1); cbn; lia) (val_fmt _)) as R. rewrite (Rabs_pos_eq (1 + _)) in R by lra. set (e := val (exp64 x)) in *.
  assert (EU : e <= X + mu * X) by (apply Rabs_le_inv in EE; lra). assert (MX : mu * X <= / 100 * X) by (apply Rmult_le_compat_r; lra). assert (UE : u * (1 + e) <= u * (2 * D)) by (apply Rmult_le_compat_l; unfold D; lra).
  replace (rnd (1 + e) - D) with ((rnd (1 + e) - (1 + e)) + (e - X)) by (unfold D; ring). eapply Rle_trans; [apply Rabs_triang|]. assert (mu * X <= mu * D) by (apply Rmult_le_compat_l; unfold D; lra). lra.
Qed.
(** the computed sigmoid is accurate, and the values at [x] and [-x] sum to one *)
Theorem sigmoid64_accurate : forall exp64 mu, faithful exp64 mu -> 0 <= mu <= / 100 -> forall x, fin x -> Rabs (val x) <= 610 ->
  fin (sigmoid64 exp64 x) /\ Rabs (val (sigmoid64 exp64 x) - ActModel.sigmoid (val x)) <= (3 * mu + 7 * u) * ActModel.sigmoid (val x) + eta /\
  Rabs (val (sigmoid64 exp64 x) + val (sigmoid64 exp64 (fneg x)) - 1) <= 3 * mu + 7 * u + 2 * eta.
Proof.
  intros exp64 mu E MU.
  assert (ACC : forall x, fin x -> Rabs (val x) <= 610 -> fin (sigmoid64 exp64 x) /\ Rabs (val (sigmoid64 exp64 x) - ActModel.sigmoid (val x)) <= (3 * mu + 7 * u) * ActModel.sigmoid (val x) + eta).
  { intros x Fx B. assert (FN : fin (fneg x)) by (apply fneg_fin; exact Fx). assert (BN : Rabs (val (fneg x)) <= 610) by (rewrite fneg_R, Rabs_Ropp; exact B).
    destruct (one_plus_accurate exp64 mu (fneg x) E MU FN BN) as (FA & GA & EA). rewrite fneg_R in EA. unfold sigmoid64, ActModel.sigmoid. set (t := val (fadd one (exp64 (fneg x)))) in *. set (D := 1 + exp (- val x)) in *.
    pose proof (exp_pos (- val x)) as P. pose proof u_pos as U0. pose proof u_tiny as U1. pose proof eta_pos as E0. destruct one_R as [F1 V1]. destruct (inv_range _ GA) as [C _].
    destruct (fdiv_R one (fadd one (exp64 (fneg x))) F1) as [FD VD]; [fold t; lra|rewrite V1; exact C|]. split; [exact FD|]. rewrite VD, V1. fold t.
    assert (DG : 1 <= D) by (unfold D; lra). pose proof (quot_rel D (mu + 2 * u) t DG ltac:(lra) EA ltac:(lra)) as Q. assert (ID : 0 < 1 / D) by (apply Rdiv_lt_0_compat; lra). assert (IT : 0 < 1 / t) by (apply Rdiv_lt_0_compat; lra).
    pose proof (rnd_abs_err (1 / t)) as R. rewrite (Rabs_pos_eq (1 / t)) in R by lra. set (a := 1 / t) in *. set (b := 1 / D) in *. assert (AB : a <= 2 * b) by (apply Rabs_le_inv in Q; assert ((mu + 2 * u) * b <= / 10 * b) by (apply Rmult_le_compat_r; lra); lra).
    assert (UA : u * a <= u * (2 * b)) by (apply Rmult_le_compat_l; lra). replace (rnd a - b) with ((rnd a - a) + (a - b)) by ring. eapply Rle_trans; [apply Rabs_triang|]. assert (0 <= mu * b) by (apply Rmult_le_pos; lra). assert (0 <= u * b) by (apply Rmult_le_pos; lra). lra. }
  intros x Fx B. destruct (ACC x Fx B) as [F1 A1]. split; [exact F1|]. split; [exact A1|]. destruct (ACC (fneg x)) as [F2 A2]; [apply fneg_fin; exact Fx|rewrite fneg_R, Rabs_Ropp; exact B|]. rewrite fneg_R in A2.
  assert (S : ActModel.sigmoid (val x) + ActModel.sigmoid (- val x) = 1). { unfold ActModel.sigmoid. rewrite Ropp_involutive, exp_Ropp. pose proof (exp_pos (val x)). field. split; lra. }
  set (s := ActModel.sigmoid (val x)) in *. set (s' := ActModel.sigmoid (- val x)) in *. set (c := 3 * mu + 7 * u) in *. apply Rabs_le_inv in A1. apply Rabs_le_inv in A2. assert (CS : c * s + c * s' = c) by (rewrite <- Rmult_plus_distr_l, S; ring). apply Rabs_le. lra.
Qed.
Print Assumptions sigmoid64_accurate.

(** ** Rectified linear unit *)
(** exact on numbers, and zero on NaN *)
Theorem relu64_exact : (forall x, num x -> num (relu64 x) /\ ext (relu64 x) = Rmax (ext x) 0) /\ relu64 nan = zero.
Proof.
  split; [|reflexivity]. intros x X. unfold relu64. destruct (flt zero x) eqn:E.
  - apply (flt_ext zero x eq_refl X) in E. change (ext zero) with 0 in E. split; [exact X|]. rewrite Rmax_left; lra.
  - split; [reflexivity|]. change (ext zero) with 0. rewrite Rmax_right; [reflexivity|]. apply Rnot_lt_le. intros L. apply (flt_ext zero x eq_refl X) in L. congruence.
Qed.
Lemma fabs_R x : val (fabs x) = Rabs (val x). Proof. apply B2R_Babs. Qed.
Lemma fabs_fin x : fin x -> fin (fabs x). Proof. unfold fin, fabs. rewrite is_finite_Babs. tauto. Qed.
(** the version on autodiff variables computes the same value unless doubling overflows *)
Theorem v_relu64_exact : forall x, fin x -> val x < bpow radix2 1023 -> fin (v_relu64 x) /\ val (v_relu64 x) = val (relu64 x).
Proof.
  intros x Fx B. destruct (relu64_exact) as [R _]. destruct (R x (fin_num _ Fx)) as [NR VR]. rewrite (ext_fin x Fx) in VR.
  assert (FR : fin (relu64 x)) by (unfold relu64; destruct (flt zero x); [exact Fx|reflexivity]). rewrite (ext_fin _ FR) in VR. rewrite VR. unfold v_relu64. pose proof (val_fmt x) as FM. set (m := Rmax (val x) 0).
  assert (FMM : fmt m) by (unfold m, Rmax; destruct (Rle_dec (val x) 0); [apply generic_format_0|exact FM]). assert (M0 : 0 <= m) by apply Rmax_r. assert (MB : m < bpow radix2 1023) by (unfold m, Rmax; destruct (Rle_dec (val x) 0); [apply bpow_gt_0|exact B]).
  assert (S : val x + Rabs (val x) = 2 * m) by (unfold m, Rmax, Rabs; destruct (Rle_dec (val x) 0), (Rcase_abs (val x)); lra).
  assert (RD : rnd (val x + Rabs (val x)) = 2 * m) by (rewrite S; apply rnd_id, fmt_2, FMM).
  destruct (fadd_R x (fabs x) Fx (fabs_fin _ Fx)) as [FA VA]. { rewrite fabs_R, RD, Rabs_pos_eq by lra. unfold fmaxR. replace 1024%Z with (1023 + 1)%Z by lia. rewrite dbl_bpow. lra. } rewrite fabs_R, RD in VA. destruct two_R as [F2 V2].
  assert (H : rnd (2 * m / 2) = m) by (replace (2 * m / 2) with m by field; apply rnd_id, FMM). destruct (fdiv_R (fadd x (fabs x)) two FA) as [FD VD]; [lra|rewrite VA, V2, H, Rabs_pos_eq by lra; apply Rlt_trans with (1 := MB), bpow_lt; lia|]. split; [exact FD|]. rewrite VD, VA, V2. exact H.
Qed.
(** the two versions do not agree everywhere: above half the largest double the autodiff version is
    infinite, and on NaN only it is NaN *)
Theorem v_relu64_refuted : v_relu64 (lit 1 1023) = pinf /\ fin (relu64 (lit 1 1023)) /\ v_relu64 nan = nan /\ relu64 nan = zero.
Proof. split; [apply same; vm_compute; reflexivity|]. split; [vm_compute; reflexivity|]. split; reflexivity. Qed.
Print Assumptions relu64_exact. Print Assumptions v_relu64_exact. Print Assumptions v_relu64_refuted.

(** ** Softplus *)
Lemma ln_move a b c : 0 < b -> Rabs (a - b) <= c * b -> c <= / 2 -> Rabs (ln a - ln b) <= 2 * c.
Proof.
  intros B H C. assert (C0 : 0 <= c) by (pose proof (Rabs_pos (a - b)); nra). apply Rabs_le_inv in H. assert (A : 0 < a) by nra.
  assert (UP : forall x y, 0 < x -> 0 < y -> ln x - ln y <= (x - y) / y). { intros x y X Y. replace (ln x - ln y) with (ln (x / y)) by (unfold Rdiv; rewrite ln_mult, ln_Rinv; [ring|exact Y|exact X|apply Rinv_0_lt_compat, Y]). assert (Q : 0 < x / y) by (apply Rdiv_lt_0_compat; lra). replace ((x - y) / y) with (x / y - 1) by (field; lra). rewrite <- (ln_exp (x / y - 1)). destruct (Req_dec (x / y - 1) 0) as [Z|Z]; [rewrite Z, exp_0; replace (x / y) with 1 by lra; lra|]. apply Rlt_le, ln_increasing; [exact Q|]. pose proof (exp_ineq1 _ Z). lra. }
  pose proof (UP a b A B) as U1. pose proof (UP b a B A) as U2. assert (Q1 : (a - b) / b <= 2 * c). { apply Rmult_le_reg_r with b; [lra|]. unfold Rdiv. rewrite Rmult_assoc, Rinv_l by lra. nra. } assert (Q2 : (b - a) / a <= 2 * c). { apply Rmult_le_reg_r with a; [lra|]. unfold Rdiv. rewrite Rmult_assoc, Rinv_l by lra. nra. } apply Rabs_le. lra.
Qed.
Theorem softplus64_accurate : forall exp64 ln64 mu lam, faithful exp64 mu -> 0 <= mu <= / 100 ->
  (forall y, fin y -> 1 <= val y -> fin (ln64 y) /\ Rabs (val (ln64 y) - ln (val y)) <= lam) ->
  forall x, fin x -> Rabs (val x) <= 610 -> fin (softplus64 exp64 ln64 x) /\ Rabs (val (softplus64 exp64 ln64 x) - ActModel.softplus (val x)) <= lam + 2 * mu + 4 * u.
Proof.
  intros exp64 ln64 mu lam E MU LN x Fx B. destruct (one_plus_accurate exp64 mu x E MU Fx B) as (FA & GA & EA). unfold softplus64, ActModel.softplus. destruct (LN _ FA GA) as [FL EL]. split; [exact FL|]. pose proof (exp_pos (val x)) as P. pose proof u_tiny as U1.
  pose proof (ln_move (val (fadd one (exp64 x))) (1 + exp (val x)) (mu + 2 * u) ltac:(lra) EA ltac:(lra)) as M. set (t := val (fadd one (exp64 x))) in *. replace (val (ln64 (fadd one (exp64 x))) - ln (1 + exp (val x))) with ((val (ln64 (fadd one (exp64 x))) - ln t) + (ln t - ln (1 + exp (val x)))) by ring. eapply Rle_trans; [apply Rabs_triang|]. lra.
Qed.
Lemma one_absorbs e : fin e -> 0 <= val e -> val e < u -> fadd one e = one.
Proof.
  intros Fe P L. destruct (one_plus e Fe P) as (FA & VA & _). destruct one_R as [F1 V1]. assert (R : rnd (1 + val e) = 1).
  { apply Rle_antisym; [|apply rnd_ge; [apply (int_fmt 1); cbn; lia|lra]]. apply round_N_le_midp; [typeclasses eauto|apply (int_fmt 1); cbn; lia|]. rewrite succ_eq_pos by lra. change 1 with (bpow radix2 0) at 4. rewrite ulp_bpow. replace (bpow radix2 (F (0 + 1))) with (2 * u). - lra. - unfold u. change (F (0 + 1)) with (-52)%Z. change (IZR (2 ^ 53)) with (bpow radix2 53). rewrite <- bpow_opp. change (- (53))%Z with (-53)%Z. change (-52)%Z with (-53 + 1)%Z. rewrite dbl_bpow. reflexivity. }
  rewrite R in VA. apply B2R_inj; [|reflexivity|transitivity 1; [exact VA|symmetry; exact V1]].
  destruct (fadd one e) as [s|s| |s mm ee Hb]; try discriminate; [|reflexivity]. exfalso. cbn in VA. lra.
Qed.
(** softplus is positive and close to its argument when that is large, but the computed value is
    [ln 1] as soon as the exponential is below the unit roundoff, and infinite as soon as the
    exponential is *)
Theorem softplus64_refuted : forall exp64 ln64 x,
  (fin (exp64 x) -> 0 <= val (exp64 x) < u -> softplus64 exp64 ln64 x = ln64 one) /\ 0 < ActModel.softplus (val x) /\
  (exp64 x = pinf -> softplus64 exp64 ln64 x = ln64 pinf) /\ (0 <= val x -> val x < ActModel.softplus (val x) <= val x + ln 2).
Proof.
  intros exp64 ln64 x. pose proof (exp_pos (val x)) as P. split; [|split; [|split]].
  - intros F [Q1 Q2]. unfold softplus64. rewrite one_absorbs; [reflexivity|exact F|exact Q1|exact Q2].
  - unfold ActModel.softplus. rewrite <- ln_1. apply ln_increasing; lra.
  - intros E. unfold softplus64. rewrite E. f_equal.
  - intros X. unfold ActModel.softplus. split; [rewrite <- (ln_exp (val x)) at 1; apply ln_increasing; lra|]. rewrite <- (ln_exp (val x)) at 2. rewrite <- ln_mult by lra. assert (1 <= exp (val x)) by (rewrite <- exp_0; apply exp_le; lra). destruct (Req_dec (1 + exp (val x)) (exp (val x) * 2)) as [Z|Z]; [rewrite Z; lra|]. apply Rlt_le, ln_increasing; lra.
Qed.
Print Assumptions softplus64_accurate. Print Assumptions softplus64_refuted.

(** ** Gaussian and error units *)
(** the gaussian unit is even, bit for bit; with an exponential that overflows from 710 on it is
    infinite at 27 *)
Theorem gaussian64_even : forall exp64, (forall x, gaussian64 exp64 (fneg x) = gaussian64 exp64 x) /\
  ((forall y, fle (lit 710 0) y = true -> exp64 y = pinf) -> gaussian64 exp64 (lit 27 0) = pinf /\ gaussian64 exp64 (lit (-27) 0) = pinf).
Proof.
  intros exp64. split.
  - intros x. unfold gaussian64. f_equal. destruct x as [[]|[]| |[] mm ee Hb]; try reflexivity; apply same; unfold fmul, fneg, Bmult, Bopp; rewrite !B2SF_SF2B; reflexivity.
  - intros H. unfold gaussian64. split; apply H; vm_compute; reflexivity.
Qed.
(** the error unit tends to zero on the left, but is NaN at minus infinity for an error function
    that returns -1 there *)
Theorem gelu64_refuted : forall erf64, erf64 ninf = lit (-1) 0 -> erf64 pinf = one -> gelu64 erf64 ninf = nan /\ gelu64 erf64 pinf = pinf.
Proof.
  intros erf64 H H'. unfold gelu64. assert (E1 : fdiv ninf (fsqrt two) = ninf) by (apply same; vm_compute; reflexivity). assert (E2 : fdiv pinf (fsqrt two) = pinf) by (apply same; vm_compute; reflexivity). rewrite E1, E2, H, H'. split; apply same; vm_compute; reflexivity.
Qed.
Print Assumptions gaussian64_even. Print Assumptions gelu64_refuted.

(** ** The hypotheses are met *)
(** an exponential rounded to nearest, extended to the infinities *)
Definition exp_case (x : f64) : f64 := match x with B754_nan => nan | B754_infinity false => pinf | B754_infinity true => zero | _ => if flt (lit 610 0) x then pinf else if flt x (lit (-610) 0) then zero else nearest64 (exp (val x)) end.
Lemma exp_case_fin x : fin x -> exp_case x = if flt (lit 610 0) x then pinf else if flt x (lit (-610) 0) then zero else nearest64 (exp (val x)).
Proof. destruct x; intros H; try reflexivity; discriminate. Qed.
Lemma lit_610 : fin (lit 610 0) /\ val (lit 610 0) = 610 /\ fin (lit (-610) 0) /\ val (lit (-610) 0) = -610.
Proof. destruct (int_lit 610 ltac:(cbn; lia)) as [A B]. destruct (int_lit (-610) ltac:(cbn; lia)) as [C D]. repeat split; assumption. Qed.
Lemma exp_range x : Rabs x <= 610 -> bpow radix2 (-970) <= exp x <= bpow radix2 970.
Proof.
  intros B. apply Rabs_le_inv in B. split; [|apply Rle_trans with (2 := exp_610); apply exp_le; lra].
  apply Rle_trans with (exp (- (610))); [|apply exp_le; lra]. rewrite exp_Ropp. change (-970)%Z with (- (970))%Z. rewrite bpow_opp. apply Rinv_le_contravar; [apply exp_pos|exact exp_610].
Qed.
Lemma nearest_val x : 0 <= x <= bpow radix2 970 -> fin (nearest64 x) /\ val (nearest64 x) = rnd x.
Proof.
  intros [L B]. destruct (rnd_cap 970 x ltac:(lia)) as [_ C]; [rewrite Rabs_pos_eq; lra|].
  assert (E : rnd (IZR (ZnearestE (scaled_mantissa radix2 F64Base.F x)) * bpow radix2 (cexp radix2 F64Base.F x)) = rnd x) by (apply rnd_id; exact (rnd_fmt x)).
  destruct (lit_R (ZnearestE (scaled_mantissa radix2 F64Base.F x)) (cexp radix2 F64Base.F x)) as [A V]; [rewrite E; exact C|]. split; [exact A|]. unfold nearest64. etransitivity; [exact V|exact E].
Qed.
Lemma exp_case_cases x : num x -> let e := exp_case x in
  (610 < ext x /\ e = pinf) \/ (ext x < -610 /\ e = zero) \/ (fin x /\ Rabs (val x) <= 610 /\ fin e /\ val e = rnd (exp (val x))).
Proof.
  intros X. destruct lit_610 as (F1 & V1 & F2 & V2). assert (BIG : 610 < fmaxR) by (apply Rlt_trans with (bpow radix2 10); [change (bpow radix2 10) with 1024; lra|apply bpow_lt; lia]).
  destruct (is_finite x) eqn:E; [|destruct x as [s|[]| |s mm ee Hb]; try discriminate; cbn; [right; left; split; [lra|reflexivity]|left; split; [lra|reflexivity]]].
  cbv zeta. rewrite (exp_case_fin x E), (ext_fin x E). destruct (flt (lit 610 0) x) eqn:A.
  - left. apply (flt_R _ _ F1 E) in A. split; [lra|reflexivity].
  - assert (LE : val x <= 610). { apply Rnot_lt_le. intros L. rewrite <- V1 in L. apply (flt_R _ _ F1 E) in L. congruence. } destruct (flt x (lit (-610) 0)) eqn:B.
    + right. left. apply (flt_R _ _ E F2) in B. split; [lra|reflexivity].
    + right. right. assert (GE : -610 <= val x). { apply Rnot_lt_le. intros L. rewrite <- V2 in L. apply (flt_R _ _ E F2) in L. congruence. } assert (AB : Rabs (val x) <= 610) by (apply Rabs_le; lra). split; [exact E|]. split; [exact AB|]. destruct (exp_range _ AB) as [R1 R2]. apply nearest_val. pose proof (exp_pos (val x)). lra.
Qed.
Example act64_case : exp_order exp_case /\ faithful exp_case u /\ fin (lit 3 0) /\ Rabs (val (lit 3 0)) <= 610.
Proof.
  split; [|split; [|split; [vm_compute; reflexivity|destruct (int_lit 3 ltac:(cbn; lia)) as [_ ->]; rewrite Rabs_pos_eq; lra]]].
  - assert (NN : forall x, num x -> num (exp_case x) /\ 0 <= ext (exp_case x)).
    { intros x X. destruct (exp_case_cases x X) as [[_ ->] | [[_ ->] | (_ & _ & F & V)]]; [split; [reflexivity|apply bpow_ge_0]|split; [reflexivity|cbn; lra]|]. split; [apply fin_num, F|]. rewrite (ext_fin _ F), V, <- rnd_0. apply rnd_le. left. apply exp_pos. }
    constructor; [|intros x y H|reflexivity].
    + intros x X. destruct (NN x X) as [N P]. split; [exact N|]. apply fle_ext; [reflexivity|exact N|exact P].
    + destruct (fle_num x y H) as [X Y]. apply (fle_ext x y X Y) in H. destruct (NN x X) as [NX PX]. destruct (NN y Y) as [NY PY]. apply fle_ext; try assumption.
      destruct (exp_case_cases y Y) as [[_ E] | [[Ly E] | (Fy & By & Ey & Vy)]]; [rewrite E; apply (ext_bound _ NX)| |].
      * destruct (exp_case_cases x X) as [[Lx _] | [[_ E'] | (Fx & Bx & _)]]; [lra|rewrite E, E'; lra|]. rewrite (ext_fin x Fx) in H. apply Rabs_le_inv in Bx. lra.
      * destruct (exp_case_cases x X) as [[Lx _] | [[_ E'] | (Fx & Bx & Ex & Vx)]]; [rewrite (ext_fin y Fy) in H; apply Rabs_le_inv in By; lra|rewrite E'; exact PY|]. rewrite (ext_fin _ Ex), (ext_fin _ Ey), Vx, Vy. apply rnd_le, exp_le. rewrite <- (ext_fin x Fx), <- (ext_fin y Fy). exact H.
  - intros x Fx B. destruct (exp_case_cases x (fin_num _ Fx)) as [[L _] | [[L _] | (_ & _ & F & V)]]; [rewrite (ext_fin x Fx) in L; apply Rabs_le_inv in B; lra|rewrite (ext_fin x Fx) in L; apply Rabs_le_inv in B; lra|]. split; [exact F|]. rewrite V. destruct (nearest_big _ (exp_range _ B)) as [_ E]. destruct (nearest_val (exp (val x))) as [_ W]; [destruct (exp_range _ B); pose proof (exp_pos (val x)); lra|]. rewrite W in E. exact E.
Qed.
(** the logarithm rounded to nearest *)
Definition ln_case (y : f64) : f64 := nearest64 (ln (val y)).
Lemma ln_top y : 1 <= y < fmaxR -> 0 <= ln y <= 1024.
Proof.
  intros [A B]. split; [destruct (Req_dec y 1) as [-> | N]; [rewrite ln_1; lra|rewrite <- ln_1; apply Rlt_le, ln_increasing; lra]|].
  apply Rle_trans with (ln (exp 1024)); [|rewrite ln_exp; lra]. apply Rlt_le, ln_increasing; [lra|]. apply Rlt_le_trans with (1 := B).
  assert (P : forall n : nat, bpow radix2 (Z.of_nat n) <= exp (INR n)). { induction n as [|n IH]; [cbn; rewrite exp_0; lra|]. rewrite S_INR, exp_plus, Nat2Z.inj_succ. unfold Z.succ. rewrite dbl_bpow. pose proof (exp_ineq1 1 ltac:(lra)) as E1. pose proof (bpow_gt_0 radix2 (Z.of_nat n)). rewrite (Rmult_comm 2). apply Rmult_le_compat; lra. }
  specialize (P (Z.to_nat 1024)). rewrite INR_IZR_INZ in P. rewrite Z2Nat.id in P by lia. exact P.
Qed.
Example softplus64_case : (forall y, fin y -> 1 <= val y -> fin (ln_case y) /\ Rabs (val (ln_case y) - ln (val y)) <= 1024 * u + eta) /\
  exp_case (lit (-700) 0) = zero /\ fin (exp_case (lit (-700) 0)) /\ 0 <= val (exp_case (lit (-700) 0)) < u /\
  exp_case (lit 700 0) = pinf /\ (forall y, fle (lit 710 0) y = true -> exp_case y = pinf).
Proof.
  split; [|split; [|split; [|split; [|split]]]].
  - intros y Fy G. pose proof (val_lt y) as V. rewrite Rabs_pos_eq in V by lra. destruct (ln_top (val y) ltac:(lra)) as [L0 L1]. destruct (nearest_val (ln (val y))) as [A B]; [split; [exact L0|]; apply Rle_trans with (1 := L1); change 1024 with (bpow radix2 10); apply bpow_le; lia|].
    split; [exact A|]. unfold ln_case. rewrite B. pose proof (rnd_abs_err (ln (val y))) as R. rewrite (Rabs_pos_eq (ln _)) in R by exact L0. pose proof u_pos. assert (u * ln (val y) <= u * 1024) by (apply Rmult_le_compat_l; lra). lra.
  - rewrite exp_case_fin by (vm_compute; reflexivity). replace (flt (lit 610 0) (lit (-700) 0)) with false by (vm_compute; reflexivity). replace (flt (lit (-700) 0) (lit (-610) 0)) with true by (vm_compute; reflexivity). reflexivity.
  - rewrite exp_case_fin by (vm_compute; reflexivity). replace (flt (lit 610 0) (lit (-700) 0)) with false by (vm_compute; reflexivity). replace (flt (lit (-700) 0) (lit (-610) 0)) with true by (vm_compute; reflexivity). reflexivity.
  - rewrite exp_case_fin by (vm_compute; reflexivity). replace (flt (lit 610 0) (lit (-700) 0)) with false by (vm_compute; reflexivity). replace (flt (lit (-700) 0) (lit (-610) 0)) with true by (vm_compute; reflexivity). pose proof u_pos. cbn. lra.
  - rewrite exp_case_fin by (vm_compute; reflexivity). replace (flt (lit 610 0) (lit 700 0)) with true by (vm_compute; reflexivity). reflexivity.
  - intros y H. destruct (fle_num _ _ H) as [A Y]. apply (fle_ext _ _ A Y) in H. rewrite (ext_fin (lit 710 0)) in H by (vm_compute; reflexivity). destruct (int_lit 710 ltac:(cbn; lia)) as [_ V]. rewrite V in H.
    destruct (exp_case_cases y Y) as [[_ E] | [[L _] | (Fy & B & _)]]; [exact E|lra|]. rewrite (ext_fin y Fy) in H. apply Rabs_le_inv in B. lra.
Qed.
