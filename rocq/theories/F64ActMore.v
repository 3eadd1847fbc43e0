(** C109, continued: the accuracy of the error unit and of the gaussian unit. *)
From Coq Require Import ZArith Reals Lra Lia List Bool Psatz.
From Flocq Require Import Core.Core IEEE754.BinarySingleNaN Relative.
From Coquelicot Require Derive Hierarchy.
From Verif Require Import Res SpecialFns F64Model F64Base F64Sum F64Order F64RootModel F64Root F64QuadModel F64Quad F64Day F64Fd F64FdGrid F64FdPrice F64ActModel F64Act.
From Verif Require ActModel.
Open Scope R_scope.

Lemma erf_lip x y : Rabs (erf x - erf y) <= 2 * Rabs (x - y).
Proof.
  destruct (Derive.MVT_gen erf y x (fun z => 2 * exp (- (z ^ 2)) / sqrt PI)) as (c & _ & E); [intros; apply erf_derive| |].
  - intros z _. apply Hierarchy.continuity_pt_filterlim. apply (Derive.ex_derive_continuous (K:=Hierarchy.R_AbsRing) (V:=Hierarchy.R_NormedModule) erf). eexists. apply erf_derive.
  - rewrite E, Rabs_mult. apply Rmult_le_compat_r; [apply Rabs_pos|]. pose proof (exp_pos (- (c ^ 2))) as P. assert (B : exp (- (c ^ 2)) <= 1) by (rewrite <- exp_0; apply exp_le; pose proof (pow2_ge_0 c); lra). assert (S : 1 <= sqrt PI) by (rewrite <- sqrt_1; apply sqrt_le_1; pose proof PI2_1; unfold PI2 in *; lra).
    assert (I : 0 < / sqrt PI <= 1) by (split; [apply Rinv_0_lt_compat; lra|rewrite <- Rinv_1; apply Rinv_le_contravar; lra]). unfold Rdiv. rewrite Rabs_pos_eq by (apply Rmult_le_pos; lra). rewrite <- (Rmult_1_r 2) at 2. apply Rmult_le_compat; lra.
Qed.
(** the error unit, with an error function of bounded absolute error *)
Theorem gelu64_accurate : forall erf64 ep, (forall y, fin y -> fin (erf64 y) /\ Rabs (val (erf64 y) - erf (val y)) <= ep) -> 0 <= ep <= 1 ->
  forall x, fin x -> Rabs (val x) <= bpow radix2 500 -> let a := Rabs (val x) in
  fin (gelu64 erf64 x) /\ Rabs (val (gelu64 erf64 x) - ActModel.gelu (val x)) <= a * (ep + 8 * u + 3 * u * a) + 8 * eta.
Proof.
  intros erf64 ep ER EP x Fx XB a. assert (A0 : 0 <= a) by apply Rabs_pos. pose proof u_pos as U0. pose proof u_9 as U1. pose proof eta_u as E1. pose proof eta_pos as E0. destruct one_R as [F1 V1]. destruct two_R as [F2 V2]. destruct half64_R as [FH VH].
  assert (R1 : 1 < sqrt 2) by (rewrite <- sqrt_1 at 1; apply sqrt_lt_1; lra). destruct (fsqrt_R two F2 ltac:(lra)) as [FI VI]. rewrite V2 in VI. set (i := val (fsqrt two)) in *. pose proof (rnd_abs_err (sqrt 2)) as RI. rewrite <- VI, (Rabs_pos_eq (sqrt 2)) in RI by lra. assert (US : u * 1 <= u * sqrt 2) by (apply Rmult_le_compat_l; lra).
  assert (I1 : 1 <= i) by (rewrite VI; apply rnd_ge; [apply (int_fmt 1); cbn; lia|lra]). assert (II : 0 < / i <= 1) by (split; [apply Rinv_0_lt_compat; lra|rewrite <- Rinv_1; apply Rinv_le_contravar; lra]). set (X := val x) in *.
  assert (QB : Rabs (X / i) <= a) by (unfold Rdiv; rewrite Rabs_mult, (Rabs_pos_eq (/ i)) by lra; rewrite <- (Rmult_1_r a); apply Rmult_le_compat_l; [exact A0|lra]).
  assert (QE : Rabs (X / i - X / sqrt 2) <= 2 * u * a). { replace (X / i - X / sqrt 2) with (X * ((sqrt 2 - i) * / sqrt 2) * / i) by (field; lra). rewrite !Rabs_mult, (Rabs_pos_eq (/ i)), (Rabs_pos_eq (/ sqrt 2)) by (try (left; apply Rinv_0_lt_compat); lra). fold a. assert (K : Rabs (sqrt 2 - i) * / sqrt 2 <= 2 * u). { apply Rmult_le_reg_r with (sqrt 2); [lra|]. rewrite Rmult_assoc, Rinv_l by lra. rewrite Rabs_minus_sym. lra. } assert (K0 : 0 <= Rabs (sqrt 2 - i) * / sqrt 2) by (apply Rmult_le_pos; [apply Rabs_pos|left; apply Rinv_0_lt_compat; lra]). apply Rle_trans with (a * (2 * u) * 1); [apply Rmult_le_compat; [apply Rmult_le_pos; assumption|lra|apply Rmult_le_compat_l; assumption|lra]|lra]. }
  destruct (rnd_cap 500 (X / i) ltac:(lia)) as [_ CQ]; [unfold a in QB; lra|]. destruct (fdiv_R x (fsqrt two) Fx) as [FQ VQ]; [fold i; lra|exact CQ|]. fold X i in VQ. set (q := fdiv x (fsqrt two)) in *. pose proof (rnd_abs_err (X / i)) as RQ. assert (UQ : u * Rabs (X / i) <= u * a) by (apply Rmult_le_compat_l; lra). assert (UA : 0 <= u * a) by (apply Rmult_le_pos; lra).
  assert (QQ : Rabs (val q - X / sqrt 2) <= 3 * u * a + eta). { rewrite VQ. replace (rnd (X / i) - X / sqrt 2) with ((rnd (X / i) - X / i) + (X / i - X / sqrt 2)) by ring. eapply Rle_trans; [apply Rabs_triang|]. lra. }
  destruct (ER q FQ) as [FE EE]. pose proof (erf_lip (val q) (X / sqrt 2)) as LP. pose proof (erf_bound (val q)) as EB. set (e := erf64 q) in *. set (w := erf (X / sqrt 2)) in *.
  assert (EW : Rabs (val e - w) <= ep + 6 * u * a + 2 * eta). { replace (val e - w) with ((val e - erf (val q)) + (erf (val q) - w)) by ring. eapply Rle_trans; [apply Rabs_triang|]. lra. }
  assert (OB : Rabs (1 + val e) <= 3) by (apply Rabs_le_inv in EE; apply Rabs_le; lra). destruct (rnd_cap 2 (1 + val e) ltac:(lia)) as [CB CC]; [change (bpow radix2 2) with 4; lra|]. change (bpow radix2 2) with 4 in CB. destruct (fadd_R one e F1 FE) as [FC VC]; [rewrite V1; exact CC|]. rewrite V1 in VC. set (c := fadd one e) in *. pose proof (rnd_sum_err 1 (val e) ltac:(apply (int_fmt 1); cbn; lia) (val_fmt _)) as RC. assert (UO : u * Rabs (1 + val e) <= u * 3) by (apply Rmult_le_compat_l; lra).
  assert (CE : Rabs (val c - (1 + w)) <= ep + 6 * u * a + 2 * eta + 3 * u). { rewrite VC. replace (rnd (1 + val e) - (1 + w)) with ((rnd (1 + val e) - (1 + val e)) + (val e - w)) by ring. eapply Rle_trans; [apply Rabs_triang|]. lra. }
  assert (HB : Rabs (/ 2 * X) = / 2 * a) by (rewrite Rabs_mult, (Rabs_pos_eq (/ 2)) by lra; reflexivity). destruct (rnd_cap 500 (/ 2 * X) ltac:(lia)) as [HB' CH]; [rewrite HB; unfold a in *; fold X in XB; lra|]. destruct (fmul_R half64 x FH Fx) as [FA VA]; [rewrite VH; exact CH|]. rewrite VH in VA. fold X in VA. set (h := fmul half64 x) in *. pose proof (rnd_abs_err (/ 2 * X)) as RH. rewrite HB, <- VA in RH.
  assert (UAS : u * a <= / 1000000000 * a) by (apply Rmult_le_compat_r; lra). assert (HS : Rabs (val h) <= 11 / 20 * a + eta). { replace (val h) with ((val h - / 2 * X) + / 2 * X) by ring. eapply Rle_trans; [apply Rabs_triang|]. lra. }
  rewrite <- VC in CB. rewrite <- VA in HB'. assert (PB : Rabs (val h * val c) <= (11 / 20 * a + eta) * 4) by (rewrite Rabs_mult; apply Rmult_le_compat; try apply Rabs_pos; assumption).
  destruct (rnd_cap 502 (val h * val c) ltac:(lia)) as [_ CP]. { rewrite Rabs_mult. change 502%Z with (500 + 2)%Z. rewrite bpow_plus. apply Rmult_le_compat; try apply Rabs_pos; [exact HB'|exact CB]. }
  destruct (fmul_R h c FA FC CP) as [FG VG]. split; [exact FG|]. unfold gelu64. fold q. fold e. fold c. fold h. rewrite VG. unfold ActModel.gelu. fold X. fold w. pose proof (rnd_abs_err (val h * val c)) as RG. assert (UP : u * Rabs (val h * val c) <= u * ((11 / 20 * a + eta) * 4)) by (apply Rmult_le_compat_l; lra). assert (UE : u * eta <= / 1000000000 * eta) by (apply Rmult_le_compat_r; lra).
  replace (rnd (val h * val c) - 1 / 2 * X * (1 + w)) with ((rnd (val h * val c) - val h * val c) + ((val h - / 2 * X) * val c + / 2 * X * (val c - (1 + w)))) by field. eapply Rle_trans; [apply Rabs_triang|]. assert (T : Rabs ((val h - / 2 * X) * val c + / 2 * X * (val c - (1 + w))) <= (u * (/ 2 * a) + eta) * 4 + / 2 * a * (ep + 6 * u * a + 2 * eta + 3 * u)).
  { eapply Rle_trans; [apply Rabs_triang|]. rewrite !(Rabs_mult (_ - _)), (Rabs_mult (/ 2 * X)), HB. apply Rplus_le_compat; apply Rmult_le_compat; try apply Rabs_pos; try assumption; lra. }
  assert (AE : a * eta <= a * (u / 1000)) by (apply Rmult_le_compat_l; lra). assert (0 <= a * ep) by (apply Rmult_le_pos; lra). lra.
Qed.
(** the gaussian unit computes [exp (x^2)] *)
Theorem gaussian64_accurate : forall exp64 mu, faithful exp64 mu -> 0 <= mu <= / 100 -> forall x, fin x -> Rabs (val x) <= 24 ->
  fin (gaussian64 exp64 x) /\ Rabs (val (gaussian64 exp64 x) - ActModel.gaussian (val x)) <= (2 * mu + 2 * u * (val x ^ 2 + 1)) * ActModel.gaussian (val x).
Proof.
  intros exp64 mu E MU x Fx B. pose proof u_pos as U0. pose proof u_9 as U1. pose proof eta_u as E1. pose proof eta_pos as E0. set (y := val x ^ 2). assert (YB : 0 <= y <= 576). { unfold y. rewrite <- pow2_abs. pose proof (Rabs_pos (val x)). split; [apply pow2_ge_0|]. replace 576 with (24 ^ 2) by ring. apply pow_incr. lra. }
  assert (GE : ActModel.gaussian (val x) = exp y) by (unfold ActModel.gaussian, y; f_equal; change (powerRZ (- val x) 2) with ((- val x) ^ 2); ring). rewrite GE. assert (FN : fin (fneg x)) by (apply fneg_fin; exact Fx). assert (PR : val (fneg x) * val (fneg x) = y) by (rewrite fneg_R; unfold y; ring).
  destruct (rnd_cap 10 y ltac:(lia)) as [_ C]; [rewrite Rabs_pos_eq by lra; change (bpow radix2 10) with 1024; lra|]. destruct (fmul_R (fneg x) (fneg x) FN FN) as [FM VM]; [rewrite PR; exact C|]. rewrite PR in VM. pose proof (rnd_abs_err y) as RE. rewrite (Rabs_pos_eq y) in RE by lra. rewrite <- VM in RE. set (m := fmul (fneg x) (fneg x)) in *.
  assert (UY : 0 <= u * y <= u * 576) by (split; [apply Rmult_le_pos; lra|apply Rmult_le_compat_l; lra]). set (n := u * (y + 1)). assert (N : Rabs (val m - y) <= n) by (unfold n; lra). assert (NS : 0 <= n <= / 1000) by (unfold n; lra). destruct (E m FM) as [FE EE]; [apply Rabs_le_inv in N; apply Rabs_le; lra|]. split; [exact FE|].
  pose proof (exp_move _ _ n N ltac:(lra)) as MV. pose proof (exp_pos y) as P. assert (Z : exp (val m) <= 2 * exp y). { apply Rabs_le_inv in MV. assert (n * exp y <= / 1000 * exp y) by (apply Rmult_le_compat_r; lra). lra. } assert (MZ : mu * exp (val m) <= mu * (2 * exp y)) by (apply Rmult_le_compat_l; lra).
  unfold gaussian64. fold m. replace (val (exp64 m) - exp y) with ((val (exp64 m) - exp (val m)) + (exp (val m) - exp y)) by ring. eapply Rle_trans; [apply Rabs_triang|]. unfold n in MV. lra.
Qed.
Print Assumptions gelu64_accurate. Print Assumptions gaussian64_accurate.
(** an error function rounded to nearest *)
Example gelu64_case : let erf64 := fun y => nearest64 (erf (val y)) in (forall y, fin y -> 0 <= val y -> fin (erf64 y) /\ Rabs (val (erf64 y) - erf (val y)) <= 2 * u) /\
  exists erf64', forall y, fin y -> fin (erf64' y) /\ Rabs (val (erf64' y) - erf (val y)) <= 2 * u.
Proof.
  intros erf64. pose proof u_pos as U0. pose proof eta_u as E1.
  assert (P : forall z, 0 <= z -> fin (nearest64 (erf z)) /\ Rabs (val (nearest64 (erf z)) - erf z) <= 2 * u).
  { intros z Z. pose proof (erf_bound z) as B. assert (0 <= erf z) by (destruct (Req_dec z 0) as [-> | N]; [rewrite erf_0; lra|rewrite <- erf_0; apply Rlt_le, erf_increasing; lra]). destruct (nearest_val (erf z)) as [A V]; [split; [lra|]; apply Rle_trans with 1; [lra|apply (bpow_le radix2 0 970); lia]|]. split; [exact A|]. rewrite V. pose proof (rnd_abs_err (erf z)) as RE. rewrite (Rabs_pos_eq (erf z)) in RE by lra. assert (u * erf z <= u * 1) by (apply Rmult_le_compat_l; lra). lra. }
  split; [intros y _ Y; apply P; exact Y|]. exists (fun y => if Rle_dec 0 (val y) then nearest64 (erf (val y)) else fneg (nearest64 (erf (- val y)))). intros y F. destruct (Rle_dec 0 (val y)) as [Y|Y]; [apply P; exact Y|]. destruct (P (- val y) ltac:(lra)) as [A B]. split; [apply fneg_fin; exact A|]. rewrite fneg_R, erf_odd in *. replace (- val (nearest64 (- erf (val y))) - erf (val y)) with (- (val (nearest64 (- erf (val y))) - - erf (val y))) by ring. rewrite Rabs_Ropp. exact B.
Qed.
