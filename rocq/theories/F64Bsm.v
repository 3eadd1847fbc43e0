(** C110: the closed-form Black-Scholes-Merton price and delta computed with binary64 arithmetic. *)
From Coq Require Import ZArith Reals Lra Lia List Bool Psatz.
From Flocq Require Import Core.Core IEEE754.BinarySingleNaN Relative.
From Coquelicot Require Derive Hierarchy.
From Verif Require Import Res PayoffModel SpecialFns F64Model F64Base F64Sum F64Order F64RootModel F64Root F64QuadModel F64Quad F64Day F64Fd F64FdGrid F64FdPrice F64Act F64BsmModel.
From Verif Require BsmModel BsmProofs.
Open Scope R_scope.

Lemma npdf_le_1 x : npdf x <= 1.
Proof.
  unfold npdf. assert (E : exp (- / 2 * x ^ 2) <= 1) by (rewrite <- exp_0; apply exp_le; pose proof (pow2_ge_0 x); lra). assert (S : 1 <= sqrt (2 * PI)) by (rewrite <- sqrt_1; apply sqrt_le_1; pose proof PI2_1; unfold PI2 in *; lra). pose proof (exp_pos (- / 2 * x ^ 2)).
  assert (I : / sqrt (2 * PI) <= 1) by (rewrite <- Rinv_1; apply Rinv_le_contravar; lra). assert (0 < / sqrt (2 * PI)) by (apply Rinv_0_lt_compat; lra). rewrite <- (Rmult_1_l 1). apply Rmult_le_compat; lra.
Qed.
Lemma ncdf_lip x y : Rabs (ncdf x - ncdf y) <= Rabs (x - y).
Proof.
  destruct (Derive.MVT_gen ncdf y x npdf) as (c & _ & E); [intros; apply ncdf_derive| |].
  - intros z _. apply Hierarchy.continuity_pt_filterlim. apply (Derive.ex_derive_continuous (K:=Hierarchy.R_AbsRing) (V:=Hierarchy.R_NormedModule) ncdf). eexists. apply ncdf_derive.
  - rewrite E, Rabs_mult. pose proof (npdf_le_1 c). pose proof (npdf_pos c). rewrite (Rabs_pos_eq (npdf c)) by lra. pose proof (Rabs_pos (x - y)). rewrite <- (Rmult_1_l (Rabs (x - y))) at 2. apply Rmult_le_compat_r; lra.
Qed.

(** a product of a positive quantity known to a relative error and a bounded one known to an absolute error *)
Lemma prod_err a c P sg N rho nu : fin a -> fin c -> bpow radix2 (-1012) <= P <= bpow radix2 1012 -> Rabs sg = 1 -> Rabs (val a - sg * P) <= rho * P -> 0 <= rho <= / 5 ->
  Rabs (val c - N) <= nu -> Rabs (val c) <= 2 -> fin (fmul a c) /\ Rabs (val (fmul a c) - sg * P * N) <= (2 * rho + nu + 4 * u) * P /\ Rabs (val (fmul a c)) <= 3 * P.
Proof.
  intros Fa Fc [P1 P2] SG A R C B. pose proof (bpow_gt_0 radix2 (-1012)) as P0. pose proof u_pos as U0. pose proof u_tiny as U1.
  assert (ET : eta <= u * P). { apply Rle_trans with (u * bpow radix2 (-1012)); [|apply Rmult_le_compat_l; lra]. unfold eta, u. change (IZR (2 ^ 53)) with (bpow radix2 53). rewrite <- bpow_opp, <- bpow_plus. change (/ 2) with (bpow radix2 (-1)). rewrite <- bpow_plus. apply bpow_le. lia. }
  assert (AB : Rabs (val a) <= 6 / 5 * P). { replace (val a) with ((val a - sg * P) + sg * P) by ring. eapply Rle_trans; [apply Rabs_triang|]. rewrite (Rabs_mult sg P), SG, (Rabs_pos_eq P) by lra. assert (rho * P <= / 5 * P) by (apply Rmult_le_compat_r; lra). lra. }
  set (z := val a * val c). assert (ZB : Rabs z <= 12 / 5 * P). { unfold z. rewrite Rabs_mult. replace (12 / 5 * P) with (6 / 5 * P * 2) by field. apply Rmult_le_compat; try apply Rabs_pos; assumption. }
  destruct (rnd_cap 1015 z ltac:(lia)) as [_ CAP]. { eapply Rle_trans; [exact ZB|]. replace 1015%Z with (1012 + 1 + 1 + 1)%Z by lia. rewrite !dbl_bpow. lra. }
  destruct (fmul_R a c Fa Fc CAP) as [FM VM]. fold z in VM. split; [exact FM|]. rewrite VM. pose proof (rnd_abs_err z) as RE. assert (UZ : u * Rabs z <= u * (12 / 5 * P)) by (apply Rmult_le_compat_l; lra). assert (UP : 0 <= u * P) by (apply Rmult_le_pos; lra).
  split.
  - replace (rnd z - sg * P * N) with ((rnd z - z) + ((val a - sg * P) * val c + sg * P * (val c - N))) by (unfold z; ring). eapply Rle_trans; [apply Rabs_triang|]. assert (T : Rabs ((val a - sg * P) * val c + sg * P * (val c - N)) <= rho * P * 2 + P * nu).
    { eapply Rle_trans; [apply Rabs_triang|]. rewrite !Rabs_mult, SG, (Rabs_pos_eq P) by lra. rewrite Rmult_1_l. apply Rplus_le_compat; [apply Rmult_le_compat; try apply Rabs_pos; assumption|apply Rmult_le_compat_l; lra]. } lra.
  - replace (rnd z) with ((rnd z - z) + z) by ring. eapply Rle_trans; [apply Rabs_triang|]. assert (u * P <= / 1000000 * P) by (apply Rmult_le_compat_r; lra). lra.
Qed.

(** the arguments: positive spot, strike, volatility and time of a moderate size, rates that do not
    discount by more than [exp 600] *)
Record args64 (s k t r b v : f64) : Prop := {
  a_s : fin s; a_k : fin k; a_t : fin t; a_r : fin r; a_b : fin b; a_v : fin v;
  b_s : bpow radix2 (-40) <= val s <= bpow radix2 40; b_k : bpow radix2 (-40) <= val k <= bpow radix2 40;
  b_t : bpow radix2 (-40) <= val t <= bpow radix2 40; b_v : bpow radix2 (-40) <= val v <= bpow radix2 40;
  b_r : (Rabs (val b) + Rabs (val r)) * val t <= 600
}.
(** a logarithm and a distribution function with bounded absolute errors *)
Definition ln_near (ln64 : f64 -> f64) (lam : R) : Prop :=
  forall y, fin y -> bpow radix2 (-100) <= val y <= bpow radix2 100 -> fin (ln64 y) /\ Rabs (val (ln64 y) - ln (val y)) <= lam.
Definition cdf_near (cdf64 : f64 -> f64) (nu : R) : Prop := forall x, fin x -> fin (cdf64 x) /\ Rabs (val (cdf64 x) - ncdf (val x)) <= nu.

(** ** The discount factors *)
Lemma factor_err exp64 mu a A t : faithful exp64 mu -> 0 <= mu <= / 100 -> fin a -> fin t -> 0 < val t -> Rabs (val a - A) <= 2 * u * Rabs A -> Rabs A * val t <= 600 ->
  let e := exp64 (fmul a t) in let rho := 2 * mu + 10 * u * (Rabs A * val t + 1) in
  fin e /\ Rabs (val e - exp (A * val t)) <= rho * exp (A * val t) /\ 0 <= rho <= / 20.
Proof.
  intros E MU Fa Ft T HA HT e rho. pose proof u_pos as U0. pose proof u_9 as U1. pose proof eta_u as E1. pose proof eta_pos as E0. set (t' := val t) in *. set (W := Rabs A * t') in *. assert (W0 : 0 <= W) by (apply Rmult_le_pos; [apply Rabs_pos|lra]).
  assert (AW : Rabs (A * t') = W) by (rewrite Rabs_mult, (Rabs_pos_eq t') by lra; reflexivity). assert (X1 : Rabs (val a * t' - A * t') <= 2 * u * W). { replace (val a * t' - A * t') with ((val a - A) * t') by ring. rewrite Rabs_mult, (Rabs_pos_eq t') by lra. unfold W. rewrite <- Rmult_assoc. apply Rmult_le_compat_r; lra. }
  assert (UW : u * W <= u * 600) by (apply Rmult_le_compat_l; lra). assert (UW0 : 0 <= u * W) by (apply Rmult_le_pos; lra). assert (XB : Rabs (val a * t') <= W + 2 * u * W). { replace (val a * t') with ((val a * t' - A * t') + A * t') by ring. eapply Rle_trans; [apply Rabs_triang|]. lra. }
  destruct (rnd_cap 10 (val a * t') ltac:(lia)) as [_ CAP]; [change (bpow radix2 10) with 1024; lra|]. destruct (fmul_R a t Fa Ft CAP) as [FM VM]. fold t' in VM. pose proof (rnd_abs_err (val a * t')) as RE. assert (UX : u * Rabs (val a * t') <= u * (2 * W + 1)) by (apply Rmult_le_compat_l; lra).
  set (n := 5 * u * (W + 1)). assert (N1 : Rabs (val (fmul a t) - A * t') <= n). { rewrite VM. replace (rnd (val a * t') - A * t') with ((rnd (val a * t') - val a * t') + (val a * t' - A * t')) by ring. eapply Rle_trans; [apply Rabs_triang|]. unfold n. lra. }
  assert (N2 : n <= / 1000) by (unfold n; lra). assert (N0 : 0 <= n) by (pose proof (Rabs_pos (val (fmul a t) - A * t')); lra).
  assert (XA : Rabs (val (fmul a t)) <= 610). { replace (val (fmul a t)) with ((val (fmul a t) - A * t') + A * t') by ring. eapply Rle_trans; [apply Rabs_triang|]. lra. }
  destruct (E (fmul a t) FM XA) as [FE EE]. split; [exact FE|]. pose proof (exp_move _ _ n N1 ltac:(lra)) as MV. set (X := exp (A * t')) in *. assert (XP : 0 < X) by apply exp_pos. set (Z := exp (val (fmul a t))) in *.
  assert (ZU : Z <= 2 * X). { apply Rabs_le_inv in MV. assert (n * X <= / 1000 * X) by (apply Rmult_le_compat_r; lra). lra. } assert (MZ : mu * Z <= mu * (2 * X)) by (apply Rmult_le_compat_l; lra).
  split; [|unfold rho; lra]. unfold e. replace (val (exp64 (fmul a t)) - X) with ((val (exp64 (fmul a t)) - Z) + (Z - X)) by ring. eapply Rle_trans; [apply Rabs_triang|]. unfold rho. unfold n in MV. lra.
Qed.
(** a price leg [p * e * c] *)
Lemma leg_err p e c sg X N rho nu : fin p -> fin e -> fin c -> Rabs sg = 1 -> bpow radix2 (-40) <= sg * val p <= bpow radix2 40 -> bpow radix2 (-970) <= X <= bpow radix2 970 -> Rabs (val e - X) <= rho * X -> 0 <= rho <= / 10 ->
  Rabs (val c - N) <= nu -> Rabs (val c) <= 2 -> let P := sg * val p * X in
  fin (fmul (fmul p e) c) /\ Rabs (val (fmul (fmul p e) c) - val p * X * N) <= (2 * rho + nu + 10 * u) * P /\ Rabs (val (fmul (fmul p e) c)) <= 3 * P.
Proof.
  intros Fp Fe Fc SG [p1 p2] [X1 X2] HE R HC B P. pose proof (bpow_gt_0 radix2 (-40)) as Q0. pose proof (bpow_gt_0 radix2 (-970)) as Q1. pose proof u_pos as U0. pose proof u_tiny as U1.
  assert (S2 : sg * sg = 1). { replace (sg * sg) with (Rabs sg * Rabs sg) by (rewrite <- Rabs_mult; apply Rabs_pos_eq; nra). rewrite SG. ring. }
  assert (PR : bpow radix2 (-1012) <= P <= bpow radix2 1012). { unfold P. split; [apply Rle_trans with (bpow radix2 (-40) * bpow radix2 (-970)); [rewrite <- bpow_plus; apply bpow_le; lia|apply Rmult_le_compat; lra]|]. apply Rle_trans with (bpow radix2 40 * bpow radix2 970); [apply Rmult_le_compat; lra|rewrite <- bpow_plus; apply bpow_le; lia]. }
  pose proof (bpow_gt_0 radix2 (-1012)) as Q2. assert (VP : val p = sg * (sg * val p)) by (rewrite <- Rmult_assoc, S2; ring). assert (AP : Rabs (val p) = sg * val p) by (rewrite VP at 1; rewrite Rabs_mult, SG, Rabs_pos_eq by lra; ring).
  assert (ET : eta <= u * P). { apply Rle_trans with (u * bpow radix2 (-1012)); [|apply Rmult_le_compat_l; lra]. unfold eta, u. change (IZR (2 ^ 53)) with (bpow radix2 53). rewrite <- bpow_opp, <- bpow_plus. change (/ 2) with (bpow radix2 (-1)). rewrite <- bpow_plus. apply bpow_le. lia. }
  set (z := val p * val e). assert (Z1 : Rabs (z - sg * P) <= rho * P). { unfold z, P. replace (sg * (sg * val p * X)) with (val p * X) by (rewrite VP at 1; ring). replace (val p * val e - val p * X) with (val p * (val e - X)) by ring. rewrite Rabs_mult, AP. replace (rho * (sg * val p * X)) with (sg * val p * (rho * X)) by ring. apply Rmult_le_compat_l; lra. }
  assert (RP : rho * P <= / 10 * P) by (apply Rmult_le_compat_r; lra). assert (ZB : Rabs z <= 11 / 10 * P). { replace z with ((z - sg * P) + sg * P) by ring. eapply Rle_trans; [apply Rabs_triang|]. rewrite (Rabs_mult sg P), SG, (Rabs_pos_eq P) by lra. lra. }
  destruct (rnd_cap 1013 z ltac:(lia)) as [_ CAP]. { eapply Rle_trans; [exact ZB|]. replace 1013%Z with (1012 + 1)%Z by lia. rewrite dbl_bpow. lra. }
  destruct (fmul_R p e Fp Fe CAP) as [FM VM]. fold z in VM. pose proof (rnd_abs_err z) as RE. assert (UZ : u * Rabs z <= u * (11 / 10 * P)) by (apply Rmult_le_compat_l; lra).
  assert (A : Rabs (val (fmul p e) - sg * P) <= (rho + 3 * u) * P). { rewrite VM. replace (rnd z - sg * P) with ((rnd z - z) + (z - sg * P)) by ring. eapply Rle_trans; [apply Rabs_triang|]. assert (0 <= u * P) by (apply Rmult_le_pos; lra). lra. }
  destruct (prod_err (fmul p e) c P sg N (rho + 3 * u) nu FM Fc PR SG A ltac:(lra) HC B) as (F1 & F2 & F3). split; [exact F1|]. split; [|exact F3]. replace (val p * X * N) with (sg * P * N) by (unfold P; rewrite VP at 2; ring). eapply Rle_trans; [exact F2|]. apply Rmult_le_compat_r; lra.
Qed.

Section Dist.
  Variables exp64 ln64 cdf64 : f64 -> f64.
  Variables s k t r b v : f64.
  Variables mu lam nu : R.
  Hypothesis AR : args64 s k t r b v.
  Hypothesis LN : ln_near ln64 lam.
  Hypothesis LAM : lam <= 1.
  Let L := Rabs (ln (val s / val k)).
  Let V := / 2 * (val v * val v).
  Let G := Rabs (val b) + V.
  Let M := L + G * val t + 1.
  Let Y := val v * sqrt (val t).
  Let A := ln (val s / val k) + (val b + V) * val t.
  Lemma lam_pos : 0 <= lam.
  Proof. destruct one_R as [F1 V1]. destruct (LN one F1) as [_ H]; [rewrite V1; split; [apply (bpow_le radix2 (-100) 0); lia|apply (bpow_le radix2 0 100); lia]|]. pose proof (Rabs_pos (val (ln64 one) - ln (val one))). lra. Qed.
  Lemma pos_args : 0 < val s /\ 0 < val k /\ 0 < val t /\ 0 < val v.
  Proof. destruct AR. pose proof (bpow_gt_0 radix2 (-40)). repeat split; lra. Qed.
  Lemma log_err : let l := ln64 (fdiv s k) in fin l /\ Rabs (val l - ln (val s / val k)) <= lam + 8 * u.
  Proof.
    intros l. destruct AR. destruct pos_args as (S0 & K0 & _). assert (AQ : ap 1 80 (fdiv s k) (val s / val k)) by (apply (ap_div 0 40 s (val s) 0 40 k (val k)); [apply ap_exact; assumption|apply ap_exact; assumption|apply few_small; lia|lia]).
    destruct AQ as (FQ & WQ & RQ). destruct (within_abs 1 _ _ WQ (few_small 1 ltac:(lia))) as [E1 E2]. change (INR 1) with 1 in E1. set (Q := val s / val k) in *. assert (Q0 : 0 < Q) by (apply Rdiv_lt_0_compat; assumption).
    assert (RG : bpow radix2 (-100) <= val (fdiv s k) <= bpow radix2 100). { split; [apply Rle_trans with (Q / 2); [|lra]; apply Rle_trans with (bpow radix2 (-81)); [apply bpow_le; lia|]; assert (D : bpow radix2 (-80) = 2 * bpow radix2 (-81)) by (rewrite <- dbl_bpow; reflexivity); change (- (80))%Z with (-80)%Z in RQ; lra|]. apply Rle_trans with (2 * Q); [lra|]. apply Rle_trans with (bpow radix2 81); [|apply bpow_le; lia]. change 81%Z with (80 + 1)%Z. rewrite dbl_bpow. lra. }
    destruct (LN _ FQ RG) as [FL EL]. split; [exact FL|]. pose proof u_tiny. pose proof (ln_move (val (fdiv s k)) Q (4 * 1 * u) Q0 ltac:(lra) ltac:(lra)) as MV. unfold l. replace (val (ln64 (fdiv s k)) - ln Q) with ((val (ln64 (fdiv s k)) - ln (val (fdiv s k))) + (ln (val (fdiv s k)) - ln Q)) by ring. eapply Rle_trans; [apply Rabs_triang|]. lra.
  Qed.
  Lemma sizes : L <= bpow radix2 80 /\ 0 < V <= bpow radix2 79 /\ Rabs (val b) * val t <= 600 /\ Rabs (val b) <= bpow radix2 50 /\ G * val t <= bpow radix2 120 /\ 0 <= G * val t /\ bpow radix2 (-60) <= Y <= bpow radix2 60.
  Proof.
    destruct AR. destruct pos_args as (S0 & K0 & T0 & V0). pose proof (Rabs_pos (val b)) as B0. pose proof (Rabs_pos (val r)) as R0.
    assert (LL : forall x, 0 < x -> ln x <= x). { intros x X. destruct (Req_dec x 1) as [-> | N]; [rewrite ln_1; lra|]. rewrite <- (ln_exp x) at 2. apply Rlt_le, ln_increasing; [exact X|]. pose proof (exp_ineq1 x ltac:(lra)). lra. }
    assert (Q : forall x y, bpow radix2 (-40) <= x <= bpow radix2 40 -> bpow radix2 (-40) <= y <= bpow radix2 40 -> 0 < x / y <= bpow radix2 80).
    { intros x y X0 Y0. pose proof (bpow_gt_0 radix2 (-40)). split; [apply Rdiv_lt_0_compat; lra|]. change 80%Z with (40 + 40)%Z. rewrite bpow_plus. unfold Rdiv. apply Rmult_le_compat; [lra|left; apply Rinv_0_lt_compat; lra|lra|]. replace (bpow radix2 40) with (/ bpow radix2 (-40)) by (rewrite <- bpow_opp; reflexivity). apply Rinv_le_contravar; lra. }
    assert (A1 : L <= bpow radix2 80). { unfold L. destruct (Q _ _ b_s0 b_k0) as [Q1 Q2]. destruct (Q _ _ b_k0 b_s0) as [Q3 Q4]. pose proof (LL _ Q1). pose proof (LL _ Q3) as H2. replace (val k / val s) with (/ (val s / val k)) in H2, Q4 by (field; lra). rewrite ln_Rinv in H2 by exact Q1. apply Rabs_le. lra. }
    assert (A2 : 0 < V <= bpow radix2 79). { unfold V. assert (0 < val v * val v) by (apply Rmult_lt_0_compat; lra). split; [lra|]. assert (val v * val v <= bpow radix2 40 * bpow radix2 40) by (apply Rmult_le_compat; lra). rewrite <- bpow_plus in H0. replace (40 + 40)%Z with (79 + 1)%Z in H0 by lia. rewrite dbl_bpow in H0. lra. }
    assert (A3 : Rabs (val b) * val t <= 600). { assert (0 <= Rabs (val r) * val t) by (apply Rmult_le_pos; lra). lra. }
    assert (A4 : Rabs (val b) <= bpow radix2 50). { apply Rmult_le_reg_r with (bpow radix2 (-40)); [apply bpow_gt_0|]. rewrite <- bpow_plus. change (bpow radix2 (50 + -40)) with 1024. apply Rle_trans with (Rabs (val b) * val t); [apply Rmult_le_compat_l; lra|lra]. }
    assert (A5 : V * val t <= bpow radix2 119). { change 119%Z with (79 + 40)%Z. rewrite bpow_plus. apply Rmult_le_compat; lra. } assert (A6 : 600 <= bpow radix2 119) by (apply Rle_trans with (bpow radix2 10); [change (bpow radix2 10) with 1024; lra|apply bpow_le; lia]).
    assert (A7 : 0 <= V * val t) by (apply Rmult_le_pos; lra). assert (A8 : 0 <= Rabs (val b) * val t) by (apply Rmult_le_pos; lra).
    split; [exact A1|]. split; [exact A2|]. split; [exact A3|]. split; [exact A4|]. assert (GE : G * val t = Rabs (val b) * val t + V * val t) by (unfold G; ring). split; [rewrite GE; change 120%Z with (119 + 1)%Z; rewrite dbl_bpow; lra|]. split; [rewrite GE; lra|].
    assert (S1 : sqrt (bpow radix2 (-40)) = bpow radix2 (-20)) by (change (-40)%Z with (-20 + -20)%Z; rewrite bpow_plus; apply sqrt_square, bpow_ge_0).
    assert (S2 : sqrt (bpow radix2 40) = bpow radix2 20) by (change 40%Z with (20 + 20)%Z; rewrite bpow_plus; apply sqrt_square, bpow_ge_0).
    assert (SQ : bpow radix2 (-20) <= sqrt (val t) <= bpow radix2 20) by (rewrite <- S1, <- S2; pose proof (bpow_ge_0 radix2 (-40)); split; apply sqrt_le_1; lra).
    pose proof (bpow_gt_0 radix2 (-20)). pose proof (bpow_gt_0 radix2 (-40)). unfold Y. split; [change (-60)%Z with (-40 + -20)%Z|change 60%Z with (40 + 20)%Z]; rewrite bpow_plus; apply Rmult_le_compat; lra.
  Qed.
  Lemma M_size : 1 <= M <= bpow radix2 122.
  Proof. destruct sizes as (A1 & _ & _ & _ & A2 & A3 & _). unfold M. pose proof (Rabs_pos (ln (val s / val k))) as L0. fold L in L0. split; [lra|]. assert (bpow radix2 80 <= bpow radix2 120) by (apply bpow_le; lia). assert (1 <= bpow radix2 120) by (apply (bpow_le radix2 0 120); lia). change 122%Z with (120 + 1 + 1)%Z. rewrite !dbl_bpow. lra. Qed.
  Lemma A_size : Rabs A <= M.
  Proof.
    destruct pos_args as (_ & _ & T0 & _). destruct sizes as (_ & [V0 _] & _). unfold A, M, G. eapply Rle_trans; [apply Rabs_triang|]. fold L. rewrite (Rabs_mult _ (val t)), (Rabs_pos_eq (val t)) by lra. assert (Rabs (val b + V) <= Rabs (val b) + V) by (eapply Rle_trans; [apply Rabs_triang|]; rewrite (Rabs_pos_eq V) by lra; lra). assert (Rabs (val b + V) * val t <= (Rabs (val b) + V) * val t) by (apply Rmult_le_compat_r; lra). lra.
  Qed.
  (** the numerator of d1 *)
  Lemma num_err : let n := num64 ln64 s k t b v in fin n /\ Rabs (val n - A) <= lam + 23 * u * M.
  Proof.
    intros n. destruct AR. destruct log_err as [FL EL]. destruct sizes as (_ & [V0 VB] & BT & BB & GT & GT0 & _). destruct pos_args as (_ & _ & T0 & VP). pose proof M_size as [M1 _]. pose proof A_size as AS. pose proof u_pos as U0. pose proof u_9 as U1. pose proof eta_u as E1. pose proof eta_pos as E0. pose proof lam_pos as L0.
    set (l := ln64 (fdiv s k)) in *.
    assert (AH : ap 2 81 (fmul half64 (fmul v v)) V). { destruct half64_R as [FH VH]. unfold V. rewrite <- VH. apply (ap_mul 0 1 half64 (val half64) 1 80 (fmul v v) (val v * val v)); [apply ap_exact; [exact FH|rewrite VH; change (bpow radix2 (- (1))) with (/ 2); change (bpow radix2 1) with 2; lra]| |apply few_small; lia|lia]. apply (ap_mul 0 40 v (val v) 0 40 v (val v)); [apply ap_exact; assumption|apply ap_exact; assumption|apply few_small; lia|lia]. }
    destruct AH as (FH & WH & _). destruct (within_abs 2 _ _ WH (few_small 2 ltac:(lia))) as [HE HB]. replace (INR 2) with 2 in HE by (cbn; ring). set (h := fmul half64 (fmul v v)) in *.
    pose proof (Rabs_pos (val b)) as B0. assert (G0 : 0 < G) by (unfold G; lra). assert (UV : u * V <= u * G) by (apply Rmult_le_compat_l; unfold G; lra). assert (UG0 : 0 <= u * G) by (apply Rmult_le_pos; lra). assert (UGS : u * G <= / 1000000000 * G) by (apply Rmult_le_compat_r; lra).
    assert (BH : Rabs (val b + val h) <= 11 / 10 * G). { eapply Rle_trans; [apply Rabs_triang|]. rewrite (Rabs_pos_eq (val h)) by lra. apply Rabs_le_inv in HE. unfold G in *. lra. }
    assert (CC : Rabs (rnd (val b + val h)) < fmaxR). { apply (rnd_cap 82); [lia|]. eapply Rle_trans; [exact BH|]. assert (bpow radix2 50 <= bpow radix2 79) by (apply bpow_le; lia). change 82%Z with (79 + 1 + 1 + 1)%Z. rewrite !dbl_bpow. unfold G. lra. }
    destruct (fadd_R b h a_b0 FH CC) as [FC VC]. pose proof (rnd_sum_err (val b) (val h) (val_fmt _) (val_fmt _)) as RC. assert (UBH : u * Rabs (val b + val h) <= u * (11 / 10 * G)) by (apply Rmult_le_compat_l; lra).
    set (c := fadd b h) in *. assert (CE : Rabs (val c - (val b + V)) <= 10 * u * G). { rewrite VC. replace (rnd (val b + val h) - (val b + V)) with ((rnd (val b + val h) - (val b + val h)) + (val h - V)) by ring. eapply Rle_trans; [apply Rabs_triang|]. lra. }
    assert (CB : Rabs (val c) <= 6 / 5 * G). { rewrite VC. replace (rnd (val b + val h)) with ((rnd (val b + val h) - (val b + val h)) + (val b + val h)) by ring. eapply Rle_trans; [apply Rabs_triang|]. lra. }
    set (gt := G * val t) in *. assert (CT : Rabs (val c * val t) <= 6 / 5 * gt) by (rewrite Rabs_mult, (Rabs_pos_eq (val t)) by lra; unfold gt; rewrite <- Rmult_assoc; apply Rmult_le_compat_r; lra).
    destruct (rnd_cap 121 (val c * val t) ltac:(lia)) as [_ CW]; [eapply Rle_trans; [exact CT|]; change 121%Z with (120 + 1)%Z; rewrite dbl_bpow; lra|]. destruct (fmul_R c t FC a_t0 CW) as [FW VW]. pose proof (rnd_abs_err (val c * val t)) as RW. assert (UCT : u * Rabs (val c * val t) <= u * (6 / 5 * gt)) by (apply Rmult_le_compat_l; lra).
    assert (UGT : 0 <= u * gt) by (apply Rmult_le_pos; lra). assert (UGM : u * gt <= u * M) by (apply Rmult_le_compat_l; [lra|]; unfold M; fold gt; pose proof (Rabs_pos (ln (val s / val k))) as LP; fold L in LP; lra). assert (UM1 : u <= u * M) by (rewrite <- (Rmult_1_r u) at 1; apply Rmult_le_compat_l; lra). assert (UMS : u * M <= / 1000000000 * M) by (apply Rmult_le_compat_r; lra).
    set (w := fmul c t) in *. assert (WE : Rabs (val w - (val b + V) * val t) <= 12 * u * gt + eta). { rewrite VW. replace (rnd (val c * val t) - (val b + V) * val t) with ((rnd (val c * val t) - val c * val t) + (val c - (val b + V)) * val t) by ring. eapply Rle_trans; [apply Rabs_triang|]. rewrite (Rabs_mult _ (val t)), (Rabs_pos_eq (val t)) by lra. assert (Rabs (val c - (val b + V)) * val t <= 10 * u * G * val t) by (apply Rmult_le_compat_r; lra). replace (10 * u * G * val t) with (10 * (u * gt)) in H by (unfold gt; ring). lra. }
    assert (SE : Rabs (val l + val w - A) <= lam + 8 * u + 12 * u * gt + eta). { unfold A. replace (val l + val w - (ln (val s / val k) + (val b + V) * val t)) with ((val l - ln (val s / val k)) + (val w - (val b + V) * val t)) by ring. eapply Rle_trans; [apply Rabs_triang|]. lra. }
    assert (SB : Rabs (val l + val w) <= 5 / 2 * M). { replace (val l + val w) with ((val l + val w - A) + A) by ring. eapply Rle_trans; [apply Rabs_triang|]. lra. }
    assert (CN : Rabs (rnd (val l + val w)) < fmaxR). { apply (rnd_cap 124); [lia|]. eapply Rle_trans; [exact SB|]. pose proof M_size as [_ M2]. change 124%Z with (122 + 1 + 1)%Z. rewrite !dbl_bpow. lra. }
    destruct (fadd_R l w FL FW CN) as [FN VN]. split; [exact FN|]. pose proof (rnd_sum_err (val l) (val w) (val_fmt _) (val_fmt _)) as RN. assert (UN : u * Rabs (val l + val w) <= u * (5 / 2 * M)) by (apply Rmult_le_compat_l; lra).
    unfold n, num64. fold h. fold c. fold w. fold l. rewrite VN. replace (rnd (val l + val w) - A) with ((rnd (val l + val w) - (val l + val w)) + (val l + val w - A)) by ring. eapply Rle_trans; [apply Rabs_triang|]. lra.
  Qed.
  Lemma dev_ap : ap 2 80 (dev64 t v) Y.
  Proof. destruct AR. unfold dev64, Y. apply (ap_mul 0 40 v (val v) 1 40 (fsqrt t) (sqrt (val t))); [apply ap_exact; assumption| |apply few_small; lia|lia]. apply ap_sqrt; [apply ap_exact; assumption|apply few_small; lia|lia]. Qed.
  (** the two ways of dividing by the deviation *)
  Definition e1 : R := (2 * lam + 64 * u * M) / Y + eta.
  Lemma scaled i : Rabs (i - / Y) <= 12 * u * / Y -> let z := i * val (num64 ln64 s k t b v) in Rabs (rnd z - A / Y) <= e1 /\ Rabs (rnd z) < fmaxR.
  Proof.
    intros HI z. destruct num_err as [_ NE]. pose proof A_size as AS. pose proof M_size as [M1 M2]. destruct sizes as (_ & _ & _ & _ & _ & _ & [Y1 Y2]). pose proof (bpow_gt_0 radix2 (-60)) as P60. pose proof u_pos as U0. pose proof u_9 as U1. pose proof lam_pos as L0. pose proof eta_pos as E0.
    set (n := val (num64 ln64 s k t b v)) in *. set (J := / Y) in *. assert (J0 : 0 < J) by (apply Rinv_0_lt_compat; lra). assert (JB : J <= bpow radix2 60) by (replace (bpow radix2 60) with (/ bpow radix2 (-60)) by (rewrite <- bpow_opp; reflexivity); apply Rinv_le_contravar; lra).
    assert (UJ : u * J <= / 1000000000 * J) by (apply Rmult_le_compat_r; lra). assert (IB : Rabs i <= 11 / 10 * J). { replace i with ((i - J) + J) by ring. eapply Rle_trans; [apply Rabs_triang|]. rewrite (Rabs_pos_eq J) by lra. lra. }
    assert (UM : u * M <= / 1000000000 * M) by (apply Rmult_le_compat_r; lra). assert (NB : Rabs n <= 5 / 2 * M). { replace n with ((n - A) + A) by ring. eapply Rle_trans; [apply Rabs_triang|]. lra. }
    assert (ZB : Rabs z <= 3 * (M * J)). { unfold z. rewrite Rabs_mult. apply Rle_trans with (11 / 10 * J * (5 / 2 * M)); [apply Rmult_le_compat; try apply Rabs_pos; assumption|]. assert (0 <= M * J) by (apply Rmult_le_pos; lra). lra. }
    assert (MJ : M * J <= bpow radix2 182) by (change 182%Z with (122 + 60)%Z; rewrite bpow_plus; apply Rmult_le_compat; lra). split; [|apply (rnd_cap 184); [lia|]; eapply Rle_trans; [exact ZB|]; change 184%Z with (182 + 1 + 1)%Z; rewrite !dbl_bpow; pose proof (bpow_gt_0 radix2 182); lra].
    pose proof (rnd_abs_err z) as RE. assert (UZ : u * Rabs z <= u * (3 * (M * J))) by (apply Rmult_le_compat_l; lra). assert (UMJ : 0 <= u * (M * J)) by (apply Rmult_le_pos; [lra|apply Rmult_le_pos; lra]).
    assert (ZE : Rabs (z - A / Y) <= 11 / 10 * J * (lam + 23 * u * M) + M * (12 * u * J)). { replace (z - A / Y) with (i * (n - A) + A * (i - J)) by (unfold z, J, Rdiv; ring). eapply Rle_trans; [apply Rabs_triang|]. rewrite !Rabs_mult. apply Rplus_le_compat; apply Rmult_le_compat; try apply Rabs_pos; assumption. }
    replace (rnd z - A / Y) with ((rnd z - z) + (z - A / Y)) by ring. eapply Rle_trans; [apply Rabs_triang|]. assert (EV : e1 = (2 * lam * J + 64 * (u * (M * J))) + eta) by (unfold e1, Rdiv; fold J; ring). rewrite EV. assert (0 <= J * lam) by (apply Rmult_le_pos; lra). lra.
  Qed.
  Lemma d1_err : fin (d1_64 ln64 s k t b v) /\ Rabs (val (d1_64 ln64 s k t b v) - A / Y) <= e1.
  Proof.
    destruct num_err as [FN _]. destruct dev_ap as (FY & WY & _). pose proof (within_pos _ _ _ WY) as YP. destruct (within_abs 2 _ _ (within_inv _ _ _ WY) (few_small 2 ltac:(lia))) as [IE _]. replace (INR 2) with 2 in IE by (cbn; ring). pose proof u_pos as U0.
    assert (J0 : 0 < / Y) by (destruct WY as [W0 _]; apply Rinv_0_lt_compat; exact W0). assert (UJ : 0 <= u * / Y) by (apply Rmult_le_pos; lra). destruct (scaled (/ val (dev64 t v)) ltac:(lra)) as [SE SC]. rewrite Rmult_comm in SE, SC. destruct (fdiv_R (num64 ln64 s k t b v) (dev64 t v) FN) as [FD VD]; [lra|exact SC|]. split; [exact FD|]. unfold d1_64. rewrite VD. exact SE.
  Qed.
  Lemma od1_err : fin (od1_64 ln64 s k t b v) /\ Rabs (val (od1_64 ln64 s k t b v) - A / Y) <= e1.
  Proof.
    destruct num_err as [FN _]. pose proof dev_ap as DY. destruct one_R as [F1 V1].
    assert (AI : ap 3 81 (fdiv one (dev64 t v)) (/ Y)). { replace (/ Y) with (val one / Y) by (rewrite V1; unfold Rdiv; ring). apply (ap_div 0 1 one (val one) 2 80 (dev64 t v) Y); [apply ap_exact; [exact F1|rewrite V1; change (bpow radix2 (- (1))) with (/ 2); change (bpow radix2 1) with 2; lra]|exact DY|apply few_small; lia|lia]. }
    destruct AI as (FI & WI & _). destruct (within_abs 3 _ _ WI (few_small 3 ltac:(lia))) as [IE _]. replace (INR 3) with 3 in IE by (cbn; ring). destruct (scaled (val (fdiv one (dev64 t v))) ltac:(lra)) as [SE SC].
    destruct (fmul_R (fdiv one (dev64 t v)) (num64 ln64 s k t b v) FI FN SC) as [FD VD]. split; [exact FD|]. unfold od1_64. rewrite VD. exact SE.
  Qed.
  Definition e2 : R := 2 * e1 + 11 * u * Y.
  Lemma d2_err d : fin d -> Rabs (val d - A / Y) <= e1 -> let z := fsub d (dev64 t v) in fin z /\ Rabs (val z - (A / Y - Y)) <= e2.
  Proof.
    intros Fd DE z. destruct dev_ap as (FY & WY & _). destruct (within_abs 2 _ _ WY (few_small 2 ltac:(lia))) as [YE YB]. replace (INR 2) with 2 in YE by (cbn; ring). pose proof A_size as AS. pose proof M_size as [M1 M2]. destruct sizes as (_ & _ & _ & _ & _ & _ & [Y1 Y2]). pose proof (bpow_gt_0 radix2 (-60)) as P60. pose proof u_pos as U0. pose proof u_9 as U1. pose proof lam_pos as L0. pose proof eta_pos as E0. pose proof eta_u as E1.
    set (y := val (dev64 t v)) in *. set (J := / Y). assert (J0 : 0 < J) by (apply Rinv_0_lt_compat; lra). assert (JB : J <= bpow radix2 60) by (replace (bpow radix2 60) with (/ bpow radix2 (-60)) by (rewrite <- bpow_opp; reflexivity); apply Rinv_le_contravar; lra).
    assert (QB : Rabs (A / Y) <= M * J). { unfold Rdiv. fold J. rewrite Rabs_mult, (Rabs_pos_eq J) by lra. apply Rmult_le_compat_r; lra. } assert (MJ0 : 0 <= M * J) by (apply Rmult_le_pos; lra). assert (MJ : M * J <= bpow radix2 182) by (change 182%Z with (122 + 60)%Z; rewrite bpow_plus; apply Rmult_le_compat; lra).
    assert (EV : e1 = (2 * lam * J + 64 * (u * (M * J))) + eta) by (unfold e1, Rdiv; fold J; ring). assert (LJ0 : 0 <= lam * J) by (apply Rmult_le_pos; lra). assert (LJ : lam * J <= bpow radix2 60) by (apply Rle_trans with (1 * J); [apply Rmult_le_compat_r; lra|lra]). assert (UMJ0 : 0 <= u * (M * J)) by (apply Rmult_le_pos; lra). assert (UMJ : u * (M * J) <= / 1000000000 * (M * J)) by (apply Rmult_le_compat_r; lra).
    assert (B1 : bpow radix2 60 <= bpow radix2 182) by (apply bpow_le; lia). assert (B2 : 1 <= bpow radix2 182) by (apply (bpow_le radix2 0 182); lia).
    assert (DB : Rabs (val d) <= M * J + e1). { replace (val d) with ((val d - A / Y) + A / Y) by ring. eapply Rle_trans; [apply Rabs_triang|]. lra. } assert (ZB : Rabs (val d - y) <= M * J + e1 + 2 * Y). { unfold Rminus. eapply Rle_trans; [apply Rabs_triang|]. rewrite Rabs_Ropp, (Rabs_pos_eq y) by lra. lra. }
    assert (CAP : Rabs (rnd (val d - y)) < fmaxR). { apply (rnd_cap 186); [lia|]. eapply Rle_trans; [exact ZB|]. change 186%Z with (182 + 1 + 1 + 1 + 1)%Z. rewrite !dbl_bpow. lra. }
    destruct (fsub_R d (dev64 t v) Fd FY CAP) as [FZ VZ]. split; [exact FZ|]. unfold z. rewrite VZ. fold y. pose proof (rnd_sum_err (val d) (- y) (val_fmt _) (fmt_opp _ (val_fmt _))) as RE. change (val d + - y) with (val d - y) in RE.
    assert (UZ : u * Rabs (val d - y) <= u * (M * J + e1 + 2 * Y)) by (apply Rmult_le_compat_l; lra). assert (UE : u * e1 <= / 1000000000 * e1) by (apply Rmult_le_compat_r; lra). assert (UY : 0 <= u * Y) by (apply Rmult_le_pos; lra).
    replace (rnd (val d - y) - (A / Y - Y)) with ((rnd (val d - y) - (val d - y)) + ((val d - A / Y) + - (y - Y))) by ring. eapply Rle_trans; [apply Rabs_triang|]. assert (T : Rabs ((val d - A / Y) + - (y - Y)) <= e1 + 8 * u * Y) by (eapply Rle_trans; [apply Rabs_triang|]; rewrite Rabs_Ropp; lra). unfold e2. lra.
  Qed.
End Dist.

(** ** Prices *)
(** the absolute error of the computed d1: the error of the logarithm and a few units of roundoff of
    the terms of the numerator, divided by the deviation *)
Definition d1_bound (lam s k t b v : R) : R := (2 * lam + 64 * u * (Rabs (ln (s / k)) + (Rabs b + v ^ 2 / 2) * t + 1)) / (v * sqrt t) + eta.
(** the error of a price relative to the sum of the discounted forward and strike *)
Definition price_bound (mu lam nu s k t r b v : R) : R := 4 * mu + nu + 33 * u * ((Rabs b + Rabs r) * t + 1) + 2 * d1_bound lam s k t b v + 11 * u * (v * sqrt t).
Definition exact_price (tf : type_flag) : R -> R -> R -> R -> R -> R -> R := match tf with Call => BsmModel.call_price | Put => BsmModel.put_price end.
Definition exact_delta (tf : type_flag) : R -> R -> R -> R -> R -> R -> R := match tf with Call => BsmModel.call_delta | Put => BsmModel.put_delta end.

Section Price.
  Variables exp64 ln64 cdf64 : f64 -> f64.
  Variables s k t r b v : f64.
  Variables mu lam nu : R.
  Hypothesis AR : args64 s k t r b v.
  Hypothesis EX : faithful exp64 mu.
  Hypothesis MU : 0 <= mu <= / 100.
  Hypothesis LN : ln_near ln64 lam.
  Hypothesis LAM : lam <= 1.
  Hypothesis CN : cdf_near cdf64 nu.
  Hypothesis NU : nu <= 1.
  Let D1 := BsmModel.d1 (val s) (val k) (val t) (val b) (val v).
  Let D2 := BsmModel.d2 (val s) (val k) (val t) (val b) (val v).
  Let X1 := exp ((val b - val r) * val t).
  Let X2 := exp (- val r * val t).
  Let E1 := d1_bound lam (val s) (val k) (val t) (val b) (val v).
  Let E2 := 2 * E1 + 11 * u * (val v * sqrt (val t)).
  Let H := (Rabs (val b) + Rabs (val r)) * val t + 1.
  Let rho := 2 * mu + 10 * u * H.
  Lemma args_pos : 0 < val s /\ 0 < val k /\ 0 < val t /\ 0 < val v.
  Proof. destruct AR. pose proof (bpow_gt_0 radix2 (-40)). repeat split; lra. Qed.
  Definition good_d (d : f64) : Prop := fin d /\ Rabs (val d - D1) <= E1.
  Lemma D1_eq : (ln (val s / val k) + (val b + / 2 * (val v * val v)) * val t) / (val v * sqrt (val t)) = D1.
  Proof. unfold D1, BsmModel.d1. f_equal. ring. Qed.
  Lemma E1_eq : e1 s k t b v lam = E1.
  Proof. unfold e1, E1, d1_bound. f_equal. f_equal. f_equal. f_equal. f_equal. f_equal. f_equal. f_equal. field. Qed.
  Lemma good_d1 : good_d (d1_64 ln64 s k t b v).
  Proof. destruct (d1_err ln64 s k t r b v lam AR LN LAM) as [F E]. rewrite D1_eq, E1_eq in E. split; assumption. Qed.
  Lemma good_od1 : good_d (od1_64 ln64 s k t b v).
  Proof. destruct (od1_err ln64 s k t r b v lam AR LN LAM) as [F E]. rewrite D1_eq, E1_eq in E. split; assumption. Qed.
  Lemma good_d2 d : good_d d -> fin (fsub d (dev64 t v)) /\ Rabs (val (fsub d (dev64 t v)) - D2) <= E2.
  Proof. intros [F E]. rewrite <- E1_eq in E. rewrite <- D1_eq in E. destruct (d2_err ln64 s k t r b v lam AR LN LAM d F E) as [FZ EZ]. split; [exact FZ|]. rewrite D1_eq in EZ. unfold e2 in EZ. rewrite E1_eq in EZ. exact EZ. Qed.
  Lemma E_order d : good_d d -> 0 <= E1 <= E2.
  Proof. intros [_ E]. pose proof (Rabs_pos (val d - D1)). destruct args_pos as (_ & _ & T0 & V0). pose proof u_pos. assert (0 <= u * (val v * sqrt (val t))) by (apply Rmult_le_pos; [lra|apply Rmult_le_pos; [lra|apply sqrt_pos]]). unfold E2. lra. Qed.
  Lemma cdf_err d D e : fin d -> Rabs (val d - D) <= e -> fin (cdf64 d) /\ Rabs (val (cdf64 d) - ncdf D) <= nu + e /\ Rabs (val (cdf64 d)) <= 2.
  Proof.
    intros F E. destruct (CN d F) as [FC EC]. split; [exact FC|]. pose proof (ncdf_bound (val d)) as B. split; [|apply Rabs_le; apply Rabs_le_inv in EC; lra]. pose proof (ncdf_lip (val d) D). replace (val (cdf64 d) - ncdf D) with ((val (cdf64 d) - ncdf (val d)) + (ncdf (val d) - ncdf D)) by ring. eapply Rle_trans; [apply Rabs_triang|]. lra.
  Qed.
  Lemma cdf_neg_err d D e : fin d -> Rabs (val d - D) <= e -> fin (cdf64 (fneg d)) /\ Rabs (val (cdf64 (fneg d)) - ncdf (- D)) <= nu + e /\ Rabs (val (cdf64 (fneg d))) <= 2.
  Proof. intros F E. apply cdf_err; [apply fneg_fin; exact F|]. rewrite fneg_R. replace (- val d - - D) with (- (val d - D)) by ring. rewrite Rabs_Ropp. exact E. Qed.
  Lemma H_size : 1 <= H <= 601 /\ Rabs (val b - val r) * val t + 1 <= H /\ Rabs (val r) * val t + 1 <= H.
  Proof.
    destruct AR. destruct args_pos as (_ & _ & T0 & _). pose proof (Rabs_pos (val b)). pose proof (Rabs_pos (val r)). unfold H. assert (0 <= (Rabs (val b) + Rabs (val r)) * val t) by (apply Rmult_le_pos; lra). split; [lra|].
    assert (Rabs (val b - val r) <= Rabs (val b) + Rabs (val r)) by (unfold Rminus; eapply Rle_trans; [apply Rabs_triang|]; rewrite Rabs_Ropp; lra). assert (Rabs (val b - val r) * val t <= (Rabs (val b) + Rabs (val r)) * val t) by (apply Rmult_le_compat_r; lra). assert (0 <= Rabs (val b) * val t) by (apply Rmult_le_pos; lra). lra.
  Qed.
  Lemma rho_size : 0 <= rho <= / 20.
  Proof. destruct H_size as [[H1 H2] _]. pose proof u_pos. pose proof u_9. assert (u * H <= u * 601) by (apply Rmult_le_compat_l; lra). assert (0 <= u * H) by (apply Rmult_le_pos; lra). unfold rho. lra. Qed.
  Lemma rho_le x W X : Rabs (x - X) <= (2 * mu + 10 * u * W) * X -> W <= H -> 0 < X -> Rabs (x - X) <= rho * X.
  Proof. intros E W1 X0. eapply Rle_trans; [exact E|]. apply Rmult_le_compat_r; [lra|]. unfold rho. pose proof u_pos. assert (u * W <= u * H) by (apply Rmult_le_compat_l; lra). lra. Qed.
  Lemma exp_size x : Rabs x <= 600 -> bpow radix2 (-970) <= exp x <= bpow radix2 970.
  Proof. intros B. apply exp_range. lra. Qed.
  Lemma carry_err : let e := carry64 exp64 t r b in fin e /\ Rabs (val e - X1) <= rho * X1 /\ bpow radix2 (-970) <= X1 <= bpow radix2 970.
  Proof.
    intros e. destruct AR. destruct args_pos as (_ & _ & T0 & _). destruct H_size as ([H1 H2] & H3 & _). pose proof (Rabs_pos (val b)) as B0. pose proof (Rabs_pos (val r)) as R0.
    assert (SUM : Rabs (val b) + Rabs (val r) <= bpow radix2 50). { apply Rmult_le_reg_r with (bpow radix2 (-40)); [apply bpow_gt_0|]. rewrite <- bpow_plus. change (bpow radix2 (50 + -40)) with 1024. apply Rle_trans with ((Rabs (val b) + Rabs (val r)) * val t); [apply Rmult_le_compat_l; lra|lra]. }
    assert (DB : Rabs (val b - val r) <= bpow radix2 50) by (unfold Rminus; eapply Rle_trans; [apply Rabs_triang|]; rewrite Rabs_Ropp; lra). destruct (rnd_cap 50 (val b - val r) ltac:(lia) DB) as [_ CAP]. destruct (fsub_R b r a_b0 a_r0 CAP) as [FS VS]. pose proof (rnd_sum_err (val b) (- val r) (val_fmt _) (fmt_opp _ (val_fmt _))) as RE. change (val b + - val r) with (val b - val r) in RE. pose proof u_pos as U0. assert (0 <= u * Rabs (val b - val r)) by (apply Rmult_le_pos; [lra|apply Rabs_pos]).
    destruct (factor_err exp64 mu (fsub b r) (val b - val r) t EX MU FS a_t0 T0) as (FE & EE & _); [rewrite VS; lra|lra|]. split; [exact FE|]. split; [apply (rho_le _ _ _ EE H3), exp_pos|]. apply exp_size. rewrite Rabs_mult, (Rabs_pos_eq (val t)) by lra. lra.
  Qed.
  Lemma disc_err : let e := disc64 exp64 t r in fin e /\ Rabs (val e - X2) <= rho * X2 /\ bpow radix2 (-970) <= X2 <= bpow radix2 970.
  Proof.
    intros e. destruct AR. destruct args_pos as (_ & _ & T0 & _). destruct H_size as ([H1 H2] & _ & H3). pose proof u_pos as U0. pose proof (Rabs_pos (val r)) as R0. rewrite <- (Rabs_Ropp (val r)) in H3.
    destruct (factor_err exp64 mu (fneg r) (- val r) t EX MU) as (FE & EE & _); [apply fneg_fin; assumption|assumption|exact T0|rewrite fneg_R; replace (- val r - - val r) with 0 by ring; rewrite Rabs_R0, Rabs_Ropp; apply Rmult_le_pos; lra|lra|]. split; [exact FE|]. split; [apply (rho_le _ _ _ EE H3), exp_pos|]. apply exp_size. rewrite Rabs_mult, (Rabs_pos_eq (val t)) by lra. lra.
  Qed.
  Let P1 := val s * X1.
  Let P2 := val k * X2.
  Let Bd := price_bound mu lam nu (val s) (val k) (val t) (val r) (val b) (val v) * (P1 + P2).
  Lemma P_size : 0 < P1 <= bpow radix2 1010 /\ 0 < P2 <= bpow radix2 1010.
  Proof.
    destruct AR. destruct args_pos as (S0 & K0 & _). destruct carry_err as (_ & _ & [_ C]). destruct disc_err as (_ & _ & [_ D]). pose proof (exp_pos ((val b - val r) * val t)) as Q1. fold X1 in Q1. pose proof (exp_pos (- val r * val t)) as Q2. fold X2 in Q2.
    unfold P1, P2. change 1010%Z with (40 + 970)%Z. rewrite bpow_plus. split; (split; [apply Rmult_lt_0_compat; lra|apply Rmult_le_compat; lra]).
  Qed.
  (** the last operation joins two legs *)
  Lemma join x y T1 T2 : fin x -> fin y -> Rabs (val x - T1) <= (2 * rho + (nu + E1) + 10 * u) * P1 -> Rabs (val y - T2) <= (2 * rho + (nu + E2) + 10 * u) * P2 -> Rabs (val x) <= 3 * P1 -> Rabs (val y) <= 3 * P2 -> 0 <= E1 <= E2 ->
    (fin (fsub x y) /\ Rabs (val (fsub x y) - (T1 - T2)) <= Bd) /\ (fin (fadd x y) /\ Rabs (val (fadd x y) - (T1 + T2)) <= Bd).
  Proof.
    intros Fx Fy EXX EY BX BY EO. destruct P_size as [[P10 P1B] [P20 P2B]]. destruct H_size as [[H1 _] _]. pose proof u_pos as U0. assert (UH : u <= u * H) by (rewrite <- (Rmult_1_r u) at 1; apply Rmult_le_compat_l; lra).
    assert (CH : 2 * rho + (nu + E2) + 13 * u <= price_bound mu lam nu (val s) (val k) (val t) (val r) (val b) (val v)). { unfold price_bound. fold E1. fold H. unfold E2, rho. lra. }
    assert (BD : (2 * rho + (nu + E2) + 13 * u) * (P1 + P2) <= Bd) by (unfold Bd; apply Rmult_le_compat_r; lra). assert (X' : (2 * rho + (nu + E1) + 10 * u) * P1 <= (2 * rho + (nu + E2) + 10 * u) * P1) by (apply Rmult_le_compat_r; lra).
    assert (G : forall z Z, Rabs (z - Z) <= (2 * rho + (nu + E2) + 10 * u) * (P1 + P2) -> Rabs z <= 3 * (P1 + P2) -> Rabs (rnd z - z) <= u * Rabs z -> Rabs (rnd z) < fmaxR /\ Rabs (rnd z - Z) <= Bd).
    { intros z Z A B C. split. - apply (rnd_cap 1014); [lia|]. eapply Rle_trans; [exact B|]. change 1014%Z with (1010 + 1 + 1 + 1 + 1)%Z. rewrite !dbl_bpow. lra. - replace (rnd z - Z) with ((rnd z - z) + (z - Z)) by ring. eapply Rle_trans; [apply Rabs_triang|]. assert (u * Rabs z <= u * (3 * (P1 + P2))) by (apply Rmult_le_compat_l; lra). lra. }
    split.
    - destruct (G (val x - val y) (T1 - T2)) as [C E].
      + replace (val x - val y - (T1 - T2)) with ((val x - T1) + - (val y - T2)) by ring. eapply Rle_trans; [apply Rabs_triang|]. rewrite Rabs_Ropp. lra.
      + unfold Rminus. eapply Rle_trans; [apply Rabs_triang|]. rewrite Rabs_Ropp. lra.
      + exact (rnd_sum_err (val x) (- val y) (val_fmt _) (fmt_opp _ (val_fmt _))).
      + destruct (fsub_R x y Fx Fy C) as [F1 V1]. split; [exact F1|]. rewrite V1. exact E.
    - destruct (G (val x + val y) (T1 + T2)) as [C E].
      + replace (val x + val y - (T1 + T2)) with ((val x - T1) + (val y - T2)) by ring. eapply Rle_trans; [apply Rabs_triang|]. lra.
      + eapply Rle_trans; [apply Rabs_triang|]. lra.
      + exact (rnd_sum_err (val x) (val y) (val_fmt _) (val_fmt _)).
      + destruct (fadd_R x y Fx Fy C) as [F1 V1]. split; [exact F1|]. rewrite V1. exact E.
  Qed.
  Lemma from_d d : good_d d ->
    (fin (call64 exp64 cdf64 d s k t r b v) /\ Rabs (val (call64 exp64 cdf64 d s k t r b v) - BsmModel.call_price (val s) (val k) (val t) (val r) (val b) (val v)) <= Bd) /\
    (fin (put64 exp64 cdf64 d s k t r b v) /\ Rabs (val (put64 exp64 cdf64 d s k t r b v) - BsmModel.put_price (val s) (val k) (val t) (val r) (val b) (val v)) <= Bd).
  Proof.
    intros GD. pose proof (E_order d GD) as EO. destruct (good_d2 d GD) as [F2 G2]. destruct GD as [F1 G1]. destruct AR. destruct args_pos as (S0 & K0 & _). destruct carry_err as (FC & CE & CR). destruct disc_err as (FD & DE & DR). pose proof rho_size as RS. assert (A1 : Rabs 1 = 1) by apply Rabs_R1. assert (A2 : Rabs (-1) = 1) by (rewrite Rabs_left; lra). set (d2 := fsub d (dev64 t v)) in *.
    destruct (cdf_err d D1 E1 F1 G1) as (FN1 & EN1 & BN1). destruct (cdf_err d2 D2 E2 F2 G2) as (FN2 & EN2 & BN2). destruct (cdf_neg_err d D1 E1 F1 G1) as (FM1 & EM1 & BM1). destruct (cdf_neg_err d2 D2 E2 F2 G2) as (FM2 & EM2 & BM2). split.
    - destruct (leg_err s _ _ 1 X1 (ncdf D1) rho (nu + E1) a_s0 FC FN1 A1 ltac:(lra) CR CE ltac:(lra) EN1 BN1) as (L1 & L2 & L3). destruct (leg_err k _ _ 1 X2 (ncdf D2) rho (nu + E2) a_k0 FD FN2 A1 ltac:(lra) DR DE ltac:(lra) EN2 BN2) as (M1 & M2 & M3). rewrite Rmult_1_l in L2, L3, M2, M3.
      destruct (join _ _ _ _ L1 M1 L2 M2 L3 M3 EO) as [[J1 J2] _]. split; [exact J1|]. exact J2.
    - assert (NS : -1 * val (fneg s) = val s) by (rewrite fneg_R; ring). destruct (leg_err (fneg s) _ _ (-1) X1 (ncdf (- D1)) rho (nu + E1) (proj2 (fneg_fin s) a_s0) FC FM1 A2 ltac:(rewrite NS; lra) CR CE ltac:(lra) EM1 BM1) as (L1 & L2 & L3). destruct (leg_err k _ _ 1 X2 (ncdf (- D2)) rho (nu + E2) a_k0 FD FM2 A1 ltac:(lra) DR DE ltac:(lra) EM2 BM2) as (M1 & M2 & M3). rewrite NS, fneg_R in L2. rewrite NS in L3. rewrite Rmult_1_l in M2, M3.
      destruct (join _ _ _ _ L1 M1 L2 M2 L3 M3 EO) as [_ [J1 J2]]. split; [exact J1|]. exact J2.
  Qed.
  Lemma delta_err tf : fin (delta64 exp64 ln64 cdf64 tf s k t r b v) /\
    Rabs (val (delta64 exp64 ln64 cdf64 tf s k t r b v) - exact_delta tf (val s) (val k) (val t) (val r) (val b) (val v)) <= price_bound mu lam nu (val s) (val k) (val t) (val r) (val b) (val v) * X1.
  Proof.
    pose proof good_d1 as GD. pose proof (E_order _ GD) as EO. destruct GD as [F1 G1]. destruct (cdf_err _ D1 E1 F1 G1) as (FN & EN & BN). destruct carry_err as (FC & CE & CR). pose proof rho_size as RS. pose proof u_pos as U0. pose proof u_tiny as U1. pose proof (exp_pos ((val b - val r) * val t)) as X0. fold X1 in X0. destruct H_size as [[H1 _] _]. assert (UH : u <= u * H) by (rewrite <- (Rmult_1_r u) at 1; apply Rmult_le_compat_l; lra).
    assert (PR : bpow radix2 (-1012) <= X1 <= bpow radix2 1012) by (split; [apply Rle_trans with (bpow radix2 (-970)); [apply bpow_le; lia|lra]|apply Rle_trans with (bpow radix2 970); [lra|apply bpow_le; lia]]). assert (CE' : Rabs (val (carry64 exp64 t r b) - 1 * X1) <= rho * X1) by (rewrite Rmult_1_l; exact CE).
    assert (CH : 2 * rho + (nu + E1 + 3 * u) + 4 * u <= price_bound mu lam nu (val s) (val k) (val t) (val r) (val b) (val v)). { unfold price_bound. fold E1. fold H. unfold E2 in EO. unfold rho. lra. }
    unfold delta64, exact_delta. destruct tf.
    - destruct (prod_err (carry64 exp64 t r b) _ X1 1 (ncdf D1) rho (nu + E1 + 3 * u) FC FN PR Rabs_R1 CE' ltac:(lra) ltac:(lra) BN) as (A & B & _). split; [exact A|]. rewrite Rmult_1_l in B. eapply Rle_trans; [exact B|]. apply Rmult_le_compat_r; lra.
    - destruct one_R as [F1' V1]. destruct (CN _ F1) as [_ EC]. pose proof (ncdf_bound (val (d1_64 ln64 s k t b v))) as NB. set (c := cdf64 (d1_64 ln64 s k t b v)) in *. apply Rabs_le_inv in EC. assert (QB : Rabs (val c - 1) <= 2) by (apply Rabs_le; lra).
      destruct (rnd_cap 1 (val c - 1) ltac:(lia)) as [RB CAP]; [exact QB|]. destruct (fsub_R c one FN F1') as [FS VS]; [rewrite V1; exact CAP|]. rewrite V1 in VS. pose proof (rnd_sum_err (val c) (- (1)) (val_fmt _)) as RE. rewrite <- V1 in RE at 1. specialize (RE (fmt_opp _ (val_fmt _))). change (val c + - (1)) with (val c - 1) in RE. assert (UQ : u * Rabs (val c - 1) <= u * 2) by (apply Rmult_le_compat_l; lra).
      assert (SE : Rabs (val (fsub c one) - (ncdf D1 - 1)) <= nu + E1 + 3 * u). { rewrite VS. replace (rnd (val c - 1) - (ncdf D1 - 1)) with ((rnd (val c - 1) - (val c - 1)) + (val c - ncdf D1)) by ring. eapply Rle_trans; [apply Rabs_triang|]. lra. }
      destruct (prod_err (carry64 exp64 t r b) (fsub c one) X1 1 (ncdf D1 - 1) rho (nu + E1 + 3 * u) FC FS PR Rabs_R1 CE' ltac:(lra) SE) as (A & B & _); [rewrite VS; exact RB|]. split; [exact A|]. rewrite Rmult_1_l in B. eapply Rle_trans; [exact B|]. apply Rmult_le_compat_r; lra.
  Qed.
End Price.

(** both pricers return a finite number close to the closed form *)
Theorem price64_accurate : forall exp64 ln64 cdf64 mu lam nu, faithful exp64 mu -> 0 <= mu <= / 100 -> ln_near ln64 lam -> lam <= 1 -> cdf_near cdf64 nu -> nu <= 1 ->
  forall tf s k t r b v, args64 s k t r b v ->
  let bound := price_bound mu lam nu (val s) (val k) (val t) (val r) (val b) (val v) * (val s * exp ((val b - val r) * val t) + val k * exp (- val r * val t)) in
  let exact := exact_price tf (val s) (val k) (val t) (val r) (val b) (val v) in
  (fin (price64 exp64 ln64 cdf64 tf s k t r b v) /\ Rabs (val (price64 exp64 ln64 cdf64 tf s k t r b v) - exact) <= bound) /\
  (fin (o_price64 exp64 ln64 cdf64 tf s k t r b v) /\ Rabs (val (o_price64 exp64 ln64 cdf64 tf s k t r b v) - exact) <= bound).
Proof.
  intros exp64 ln64 cdf64 mu lam nu EX MU LN LAM CN NU tf s k t r b v AR. cbv zeta.
  destruct (from_d exp64 ln64 cdf64 s k t r b v mu lam nu AR EX MU LN LAM CN NU _ (good_d1 ln64 s k t r b v lam AR LN LAM)) as [A B]. destruct (from_d exp64 ln64 cdf64 s k t r b v mu lam nu AR EX MU LN LAM CN NU _ (good_od1 ln64 s k t r b v lam AR LN LAM)) as [C D].
  destruct tf; split; assumption.
Qed.
(** put-call parity up to twice that error *)
Theorem parity64 : forall exp64 ln64 cdf64 mu lam nu, faithful exp64 mu -> 0 <= mu <= / 100 -> ln_near ln64 lam -> lam <= 1 -> cdf_near cdf64 nu -> nu <= 1 ->
  forall s k t r b v, args64 s k t r b v -> let F := val s * exp ((val b - val r) * val t) in let K := val k * exp (- val r * val t) in
  Rabs (val (price64 exp64 ln64 cdf64 Call s k t r b v) - val (price64 exp64 ln64 cdf64 Put s k t r b v) - (F - K)) <= 2 * price_bound mu lam nu (val s) (val k) (val t) (val r) (val b) (val v) * (F + K).
Proof.
  intros exp64 ln64 cdf64 mu lam nu EX MU LN LAM CN NU s k t r b v AR F K. destruct (price64_accurate _ _ _ mu lam nu EX MU LN LAM CN NU Call _ _ _ _ _ _ AR) as [[_ A] _]. destruct (price64_accurate _ _ _ mu lam nu EX MU LN LAM CN NU Put _ _ _ _ _ _ AR) as [[_ B] _]. fold F in A, B. fold K in A, B. unfold exact_price in A, B.
  assert (PC : BsmModel.call_price (val s) (val k) (val t) (val r) (val b) (val v) - BsmModel.put_price (val s) (val k) (val t) (val r) (val b) (val v) = F - K). { unfold BsmModel.call_price, BsmModel.put_price. rewrite !ncdf_sym. unfold F, K. ring. }
  set (c := BsmModel.call_price _ _ _ _ _ _) in *. set (p := BsmModel.put_price _ _ _ _ _ _) in *. set (c' := val (price64 exp64 ln64 cdf64 Call s k t r b v)) in *. set (p' := val (price64 exp64 ln64 cdf64 Put s k t r b v)) in *. set (w := price_bound _ _ _ _ _ _ _ _ _) in *. apply Rabs_le_inv in A. apply Rabs_le_inv in B. apply Rabs_le. lra.
Qed.
(** delta, relative to the carry factor *)
Theorem delta64_accurate : forall exp64 ln64 cdf64 mu lam nu, faithful exp64 mu -> 0 <= mu <= / 100 -> ln_near ln64 lam -> lam <= 1 -> cdf_near cdf64 nu -> nu <= 1 ->
  forall tf s k t r b v, args64 s k t r b v -> fin (delta64 exp64 ln64 cdf64 tf s k t r b v) /\
  Rabs (val (delta64 exp64 ln64 cdf64 tf s k t r b v) - exact_delta tf (val s) (val k) (val t) (val r) (val b) (val v)) <= price_bound mu lam nu (val s) (val k) (val t) (val r) (val b) (val v) * exp ((val b - val r) * val t).
Proof. intros. apply delta_err; assumption. Qed.
Print Assumptions price64_accurate. Print Assumptions parity64. Print Assumptions delta64_accurate.

(** ** At and after the expiry *)
Section Expiry.
  Variables exp64 ln64 cdf64 : f64 -> f64.
  Hypothesis E0 : forall z, fin z -> val z = 0 -> exp64 z = one.
  Hypothesis CP : cdf64 pinf = one.
  Hypothesis CM : cdf64 ninf = zero.
  Hypothesis CN : cdf64 nan = nan.
  Lemma by_zero x : fin x -> fin (fmul x zero) /\ val (fmul x zero) = 0 /\ exists sg, fmul x zero = B754_zero sg.
  Proof. destruct x as [sg|sg| |sg mm ee Hb]; intros F; try discriminate; (split; [reflexivity|split; [reflexivity|eexists; reflexivity]]). Qed.
  Lemma by_one x : fin x -> fin (fmul x one) /\ val (fmul x one) = val x.
  Proof. intros F. destruct one_R as [F1 V1]. assert (R : rnd (val x * val one) = val x) by (rewrite V1, Rmult_1_r; apply rnd_id, val_fmt). destruct (fmul_R x one F F1) as [A B]; [rewrite R; apply val_lt|]. split; [exact A|]. rewrite B. exact R. Qed.
  Lemma dev_zero v : fin v -> 0 < val v -> dev64 zero v = zero.
  Proof.
    intros F P. unfold dev64. assert (S : fsqrt zero = zero) by (apply same; vm_compute; reflexivity). rewrite S. destruct v as [sg|sg| |sg mm ee Hb]; try discriminate; [cbn in P; lra|]. destruct sg; [|reflexivity]. exfalso. cbn in P. pose proof (F2R_lt_0 radix2 (Float radix2 (Z.neg mm) ee) eq_refl) as N. cbn in N. unfold F2R in *. cbn in *. lra.
  Qed.
  Lemma legs_at p r b c : fin p -> fin r -> fin b -> fin (fsub b r) -> fin c -> (c = one \/ c = zero) ->
    (fin (fmul (fmul p (carry64 exp64 zero r b)) c) /\ val (fmul (fmul p (carry64 exp64 zero r b)) c) = val p * val c) /\ (fin (fmul (fmul p (disc64 exp64 zero r)) c) /\ val (fmul (fmul p (disc64 exp64 zero r)) c) = val p * val c).
  Proof.
    intros Fp Fr Fb Fd Fc HC. destruct (by_zero _ Fd) as (Z1 & Z2 & _). destruct (by_zero _ (proj2 (fneg_fin r) Fr)) as (Z3 & Z4 & _). unfold carry64, disc64. rewrite (E0 _ Z1 Z2), (E0 _ Z3 Z4). destruct (by_one p Fp) as [A B].
    assert (Q : fin (fmul (fmul p one) c) /\ val (fmul (fmul p one) c) = val p * val c). { destruct one_R as [_ V1]. destruct HC as [-> | ->]; [destruct (by_one _ A) as [C D]; split; [exact C|]; rewrite D, B, V1; ring|destruct (by_zero _ A) as (C & D & _); split; [exact C|]; rewrite D; cbn; ring]. } split; exact Q.
  Qed.
  (** the two forms of d1 when the time is zero *)
  Lemma d_at s k b v : fin v -> 0 < val v -> fin (fadd b (fmul half64 (fmul v v))) -> fin (ln64 (fdiv s k)) -> let l := val (ln64 (fdiv s k)) in
    let d := d1_64 ln64 s k zero b v in let o := od1_64 ln64 s k zero b v in (0 < l -> d = pinf /\ o = pinf) /\ (l < 0 -> d = ninf /\ o = ninf) /\ (l = 0 -> d = nan /\ o = nan).
  Proof.
    intros Fv Pv Fc Fl l d o. unfold d, o, d1_64, od1_64, num64. rewrite (dev_zero v Fv Pv). destruct (by_zero _ Fc) as (_ & _ & [sg ->]). assert (I : fdiv one zero = pinf) by (apply same; vm_compute; reflexivity). rewrite I. unfold l. clear d o l I.
    destruct (ln64 (fdiv s k)) as [sl|sl| |sl mm ee Hb]; try discriminate.
    - split; [cbn; lra|]. split; [cbn; lra|]. intros _. destruct sl, sg; split; reflexivity.
    - assert (SGN : if sl then val (B754_finite sl mm ee Hb) < 0 else 0 < val (B754_finite sl mm ee Hb)). { destruct sl; cbn; [apply F2R_lt_0|apply F2R_gt_0]; reflexivity. }
      destruct sl; (split; [|split]); intros Q; try (exfalso; lra); destruct sg; split; reflexivity.
  Qed.
  (** at the expiry the price is the payoff, unless the option is at the money: then it is NaN *)
  Theorem expiry64 : forall s k r b v, fin s -> fin k -> 0 < val s -> 0 < val k -> fin r -> fin b -> fin (fsub b r) -> fin v -> 0 < val v -> fin (fadd b (fmul half64 (fmul v v))) -> fin (ln64 (fdiv s k)) ->
    let l := val (ln64 (fdiv s k)) in forall price, price = price64 exp64 ln64 cdf64 \/ price = o_price64 exp64 ln64 cdf64 ->
    (0 < l -> val (price Call s k zero r b v) = rnd (val s - val k) /\ val (price Put s k zero r b v) = 0) /\
    (l < 0 -> val (price Call s k zero r b v) = 0 /\ val (price Put s k zero r b v) = rnd (val k - val s)) /\
    (l = 0 -> price Call s k zero r b v = nan /\ price Put s k zero r b v = nan).
  Proof.
    intros s k r b v Fs Fk Ps Pk Fr Fb Fd Fv Pv Fc Fl l price HP. destruct (d_at s k b v Fv Pv Fc Fl) as (D1 & D2 & D3). fold l in D1, D2, D3. destruct one_R as [F1 V1].
    assert (CAP : Rabs (rnd (val s - val k)) < fmaxR). { pose proof (val_lt s) as A. pose proof (val_lt k) as B. rewrite Rabs_pos_eq in A by lra. rewrite Rabs_pos_eq in B by lra. assert (U1 : rnd (val s - val k) <= val s) by (apply rnd_le_fmt; [apply val_fmt|lra]). assert (U2 : - val k <= rnd (val s - val k)) by (apply rnd_ge; [apply fmt_opp, val_fmt|lra]). apply Rabs_def1; lra. }
    assert (Fns : fin (fneg s)) by (apply fneg_fin; exact Fs). assert (Z0 : val zero = 0) by reflexivity.
    destruct (legs_at s r b one Fs Fr Fb Fd F1 (or_introl eq_refl)) as [[S1 S2] _]. destruct (legs_at s r b zero Fs Fr Fb Fd eq_refl (or_intror eq_refl)) as [[S3 S4] _]. destruct (legs_at (fneg s) r b one Fns Fr Fb Fd F1 (or_introl eq_refl)) as [[N1 N2] _]. destruct (legs_at (fneg s) r b zero Fns Fr Fb Fd eq_refl (or_intror eq_refl)) as [[N3 N4] _].
    destruct (legs_at k r b one Fk Fr Fb Fd F1 (or_introl eq_refl)) as [_ [K1 K2]]. destruct (legs_at k r b zero Fk Fr Fb Fd eq_refl (or_intror eq_refl)) as [_ [K3 K4]]. rewrite V1, Rmult_1_r in S2, N2, K2. rewrite Z0, Rmult_0_r in S4, N4, K4. rewrite fneg_R in N2.
    assert (PP : forall d, d = pinf -> val (call64 exp64 cdf64 d s k zero r b v) = rnd (val s - val k) /\ val (put64 exp64 cdf64 d s k zero r b v) = 0).
    { intros d ->. unfold call64, put64. rewrite (dev_zero v Fv Pv). change (fsub pinf zero) with pinf. change (fneg pinf) with ninf. rewrite CP, CM. split.
      - destruct (fsub_R _ _ S1 K1) as [_ B]; [rewrite S2, K2; exact CAP|]. rewrite B, S2, K2. reflexivity.
      - destruct (fadd_R _ _ N3 K3) as [_ B]; [rewrite N4, K4, Rplus_0_r, rnd_0, Rabs_R0; apply bpow_gt_0|]. rewrite B, N4, K4, Rplus_0_r. apply rnd_0. }
    assert (MM : forall d, d = ninf -> val (call64 exp64 cdf64 d s k zero r b v) = 0 /\ val (put64 exp64 cdf64 d s k zero r b v) = rnd (val k - val s)).
    { intros d ->. unfold call64, put64. rewrite (dev_zero v Fv Pv). change (fsub ninf zero) with ninf. change (fneg ninf) with pinf. rewrite CP, CM. split.
      - destruct (fsub_R _ _ S3 K3) as [_ B]; [rewrite S4, K4, Rminus_0_r, rnd_0, Rabs_R0; apply bpow_gt_0|]. rewrite B, S4, K4, Rminus_0_r. apply rnd_0.
      - assert (E : - val s + val k = val k - val s) by ring. assert (CAP' : Rabs (rnd (val k - val s)) < fmaxR) by (replace (val k - val s) with (- (val s - val k)) by ring; rewrite rnd_opp, Rabs_Ropp; exact CAP). destruct (fadd_R _ _ N1 K1) as [_ B]; [rewrite N2, K2, E; exact CAP'|]. rewrite B, N2, K2, E. reflexivity. }
    assert (mul_nan : forall x, fmul x nan = nan) by (intros x; destruct x; reflexivity).
    assert (NN : forall d, d = nan -> call64 exp64 cdf64 d s k zero r b v = nan /\ put64 exp64 cdf64 d s k zero r b v = nan).
    { intros d ->. unfold call64, put64. change (fneg nan) with nan. change (fsub nan (dev64 zero v)) with nan. change (fneg nan) with nan. rewrite CN, !mul_nan. split; reflexivity. }
    split; [|split]; intros Q; [destruct (D1 Q) as [A B]|destruct (D2 Q) as [A B]|destruct (D3 Q) as [A B]]; destruct HP as [-> | ->]; unfold price64, o_price64; rewrite ?A, ?B; first [apply PP; reflexivity|apply MM; reflexivity|apply NN; reflexivity].
  Qed.
  (** after the expiry the price is NaN *)
  Theorem expired64 : forall tf s k t r b v, fin t -> val t < 0 -> price64 exp64 ln64 cdf64 tf s k t r b v = nan /\ o_price64 exp64 ln64 cdf64 tf s k t r b v = nan.
  Proof.
    intros tf s k t r b v Ft N. assert (mul_nan : forall x, fmul x nan = nan) by (intros x; destruct x; reflexivity). assert (div_nan : forall x, fdiv x nan = nan) by (intros x; destruct x; reflexivity).
    assert (Q : fsqrt t = nan). { destruct t as [sg|sg| |sg mm ee Hb]; try discriminate; [cbn in N; lra|]. destruct sg; [reflexivity|]. exfalso. pose proof (F2R_gt_0 radix2 (Float radix2 (Z.pos mm) ee) eq_refl) as P. cbn in N. cbn in P. lra. }
    unfold price64, o_price64, call64, put64, d1_64, od1_64, dev64. rewrite Q, mul_nan, !div_nan. change (fmul nan (num64 ln64 s k t b v)) with nan. change (fneg nan) with nan. change (fsub nan nan) with nan. change (fneg nan) with nan. rewrite CN, !mul_nan. destruct tf; split; reflexivity.
  Qed.
End Expiry.
Print Assumptions expiry64. Print Assumptions expired64.

(** ** The hypotheses are met *)
Definition cdf_case (x : f64) : f64 := match x with B754_nan => nan | B754_infinity false => one | B754_infinity true => zero | _ => nearest64 (ncdf (val x)) end.
Definition exp_at (x : f64) : f64 := if feq x zero then one else exp_case x.
Example bsm64_case : faithful exp_case u /\ ln_near ln_case (1024 * u + eta) /\ 1024 * u + eta <= 1 /\ cdf_near cdf_case (2 * u) /\ args64 (lit 100 0) (lit 105 0) one (lit 1 (-4)) (lit 1 (-4)) (lit 1 (-2)) /\
  (forall z, fin z -> val z = 0 -> exp_at z = one) /\ cdf_case pinf = one /\ cdf_case ninf = zero /\ cdf_case nan = nan.
Proof.
  pose proof u_pos as U0. pose proof u_9 as U1. pose proof eta_u as E1. split; [apply act64_case|]. split; [|split; [lra|split; [|split; [|split; [|split; [|split]]]]]]; try reflexivity.
  - intros y F [Y1 Y2]. assert (LB : Rabs (ln (val y)) <= 1024).
    { assert (P100 : bpow radix2 100 < fmaxR) by (apply bpow_lt; lia). pose proof (bpow_gt_0 radix2 (-100)) as P0. destruct (Rle_lt_dec 1 (val y)) as [G|G]; [destruct (ln_top (val y) ltac:(lra)); rewrite Rabs_pos_eq; lra|].
      assert (I1 : 1 <= / val y) by (rewrite <- Rinv_1; apply Rinv_le_contravar; lra). assert (I2 : / val y <= bpow radix2 100) by (replace (bpow radix2 100) with (/ bpow radix2 (-100)) by (rewrite <- bpow_opp; reflexivity); apply Rinv_le_contravar; lra). destruct (ln_top (/ val y) ltac:(lra)) as [A B]. rewrite ln_Rinv in A, B by lra. apply Rabs_le. lra. }
    assert (NV : fin (ln_case y) /\ val (ln_case y) = rnd (ln (val y))). { destruct (rnd_cap 10 (ln (val y)) ltac:(lia) LB) as [_ C]. unfold ln_case, nearest64.
      assert (E : rnd (IZR (ZnearestE (scaled_mantissa radix2 F64Base.F (ln (val y)))) * bpow radix2 (cexp radix2 F64Base.F (ln (val y)))) = rnd (ln (val y))) by (apply rnd_id; exact (rnd_fmt (ln (val y)))). destruct (lit_R (ZnearestE (scaled_mantissa radix2 F64Base.F (ln (val y)))) (cexp radix2 F64Base.F (ln (val y)))) as [A V]; [rewrite E; exact C|]. split; [exact A|]. etransitivity; [exact V|exact E]. }
    destruct NV as [FN VN]. split; [exact FN|]. rewrite VN. pose proof (rnd_abs_err (ln (val y))) as RE. assert (u * Rabs (ln (val y)) <= u * 1024) by (apply Rmult_le_compat_l; lra). lra.
  - intros x F. assert (Q : cdf_case x = nearest64 (ncdf (val x))) by (destruct x; try discriminate; reflexivity). rewrite Q. pose proof (ncdf_bound (val x)) as B. destruct (nearest_val (ncdf (val x))) as [A V]; [split; [lra|]; apply Rle_trans with 1; [lra|apply (bpow_le radix2 0 970); lia]|]. split; [exact A|]. rewrite V. pose proof (rnd_abs_err (ncdf (val x))) as RE. rewrite (Rabs_pos_eq (ncdf _)) in RE by lra. assert (u * ncdf (val x) <= u * 1) by (apply Rmult_le_compat_l; lra). lra.
  - destruct (int_lit 100 ltac:(cbn; lia)) as [A1 A2]. destruct (int_lit 105 ltac:(cbn; lia)) as [B1 B2]. destruct one_R as [O1 O2]. destruct (entry_R 1 (-4) ltac:(lia) ltac:(lia)) as [C1 C2]. destruct (entry_R 1 (-2) ltac:(lia) ltac:(lia)) as [D1 D2]. change (entry (1, -4)%Z) with (lit 1 (-4)) in C1, C2. change (entry (1, -2)%Z) with (lit 1 (-2)) in D1, D2. change (bpow radix2 (-4)) with (/ 16) in C2. change (bpow radix2 (-2)) with (/ 4) in D2.
    assert (L : bpow radix2 (-40) <= / 4) by (apply (bpow_le radix2 (-40) (-2)); lia). assert (R : 128 <= bpow radix2 40) by (apply (bpow_le radix2 7 40); lia). constructor; try assumption; rewrite ?A2, ?B2, ?O2, ?C2, ?D2; try lra. rewrite Rabs_pos_eq by lra. lra.
  - intros z F V. unfold exp_at. replace (feq z zero) with true; [reflexivity|]. symmetry. apply (feq_R z zero F eq_refl). exact V.
Qed.
(** a function of the library's interface that meets the hypotheses of [expiry64]; the option struck
    at the spot is worth NaN on its last day although it pays nothing *)
Theorem expiry64_refuted : val (price64 exp_at ln_case cdf_case Call two one zero zero zero one) = 1 /\ price64 exp_at ln_case cdf_case Call one one zero zero zero one = nan /\ o_price64 exp_at ln_case cdf_case Call one one zero zero zero one = nan.
Proof.
  destruct bsm64_case as (_ & LN & _ & _ & _ & EA & CP & CM & CN). destruct one_R as [F1 V1]. destruct two_R as [F2 V2]. pose proof u_9 as U1. pose proof u_pos as U0. pose proof eta_u as E1.
  assert (Q1 : fdiv one one = one) by (apply same; vm_compute; reflexivity). assert (Q2 : fdiv two one = two) by (apply same; vm_compute; reflexivity). assert (R : forall x, 1 <= x <= 2 -> bpow radix2 (-100) <= x <= bpow radix2 100) by (intros x X; split; [apply Rle_trans with 1; [apply (bpow_le radix2 (-100) 0); lia|lra]|apply Rle_trans with 2; [lra|apply (bpow_le radix2 1 100); lia]]).
  destruct (LN one F1) as [L1 _]; [apply R; lra|]. destruct (LN two F2) as [L2 EL]; [apply R; lra|]. assert (V0 : val (ln_case one) = 0). { unfold ln_case. rewrite V1, ln_1. destruct (nearest_val 0) as [_ B]; [split; [lra|apply bpow_ge_0]|]. rewrite B. apply rnd_0. }
  assert (P2 : 0 < val (ln_case two)). { rewrite V2 in EL. apply Rabs_le_inv in EL. assert (/ 2 <= ln 2). { pose proof ln_lt_2. lra. } lra. }
  assert (Fc : fin (fadd zero (fmul half64 (fmul one one)))) by (vm_compute; reflexivity). assert (P1 : 0 < val one) by lra. assert (P3 : 0 < val two) by lra.
  assert (H1 : fin (ln_case (fdiv one one))) by (rewrite Q1; exact L1). assert (H2 : fin (ln_case (fdiv two one))) by (rewrite Q2; exact L2).
  destruct (expiry64 exp_at ln_case cdf_case EA CP CM CN two one zero zero one F2 F1 P3 P1 eq_refl eq_refl eq_refl F1 P1 Fc H2 _ (or_introl eq_refl)) as [A _]. rewrite Q2 in A. destruct (A P2) as [A1 _]. split; [rewrite A1, V1, V2; replace (2 - 1) with 1 by ring; apply rnd_id, (int_fmt 1); cbn; lia|].
  destruct (expiry64 exp_at ln_case cdf_case EA CP CM CN one one zero zero one F1 F1 P1 P1 eq_refl eq_refl eq_refl F1 P1 Fc H1 _ (or_introl eq_refl)) as (_ & _ & B). destruct (expiry64 exp_at ln_case cdf_case EA CP CM CN one one zero zero one F1 F1 P1 P1 eq_refl eq_refl eq_refl F1 P1 Fc H1 _ (or_intror eq_refl)) as (_ & _ & C). rewrite Q1 in B, C. destruct (B V0) as [B1 _]. destruct (C V0) as [C1 _]. split; assumption.
Qed.
Print Assumptions expiry64_refuted.
