(** C84: where the complex logarithm crosses its branch cut. *)
From Coq Require Import Reals List Bool Lra Lia Psatz.
From Coquelicot Require Import Coquelicot.
From Verif Require Import Res InterpModel InterpProofs RList StatModel StatProps PayoffModel SpecialFns BsmModel BsmProofs BsmProps BachHestonProps HestonOde HestonPde.
Import ListNotations.
Open Scope R_scope.

(** ** The principal branches, as num-complex documents them *)
Definition principal_log (cln : C -> C) : Prop := forall z, z <> RtoC 0 -> cexp (cln z) = z /\ - PI < snd (cln z) <= PI.
Definition principal_sqrt (csqrt : C -> C) : Prop := forall z, Cmult (csqrt z) (csqrt z) = z /\ 0 <= fst (csqrt z).
Lemma sin_zero_strip : forall x, - PI < x < PI -> sin x = 0 -> x = 0.
Proof.
  intros x H E. destruct (Rtotal_order x 0) as [L|[L|L]]; [|exact L|].
  - assert (0 < sin (- x)) by (apply sin_gt_0; lra). rewrite sin_neg in *. lra.
  - assert (0 < sin x) by (apply sin_gt_0; lra). lra.
Qed.
Lemma cos_one_strip : forall x, - (2 * PI) < x < 2 * PI -> cos x = 1 -> x = 0.
Proof.
  intros x H E. assert (K : sin (x / 2) = 0).
  { assert (C2 : cos x = 1 - 2 * sin (x / 2) * sin (x / 2)) by (rewrite <- cos_2a_sin; f_equal; field). assert (sin (x / 2) * sin (x / 2) = 0) by lra. nra. }
  assert (x / 2 = 0) by (apply sin_zero_strip; [lra|exact K]). lra.
Qed.
Lemma cexp_inj : forall a b, cexp a = cexp b -> - PI < snd a <= PI -> - PI < snd b <= PI -> a = b.
Proof.
  intros a b E A B. assert (R : exp (fst a) = exp (fst b)).
  { assert (N := f_equal (fun z => fst z ^ 2 + snd z ^ 2) E). cbv beta in N. rewrite !cexp_norm in N. pose proof (exp_pos (fst a)). pose proof (exp_pos (fst b)). nra. }
  destruct a as [x y], b as [x' y']. simpl in *. apply exp_inv in R as E1. subst x'. f_equal. unfold cexp in E. simpl in E. injection E as E1 E2. pose proof (exp_pos x).
  apply Rmult_eq_reg_l in E1; [|lra]. apply Rmult_eq_reg_l in E2; [|lra].
  assert (K : y - y' = 0); [|lra]. apply cos_one_strip; [lra|]. rewrite cos_minus, E1, E2. pose proof (sin2_cos2 y') as T. unfold Rsqr in T. lra.
Qed.
Lemma atan_strip : forall x, - PI < 2 * atan x <= PI.
Proof. intro x. pose proof (atan_bound x). lra. Qed.
Lemma plog_slit : forall cln, principal_log cln -> forall z, slit z -> cln z = clog z.
Proof.
  intros cln H z S0. pose proof (slit_norm z S0) as N. assert (NZ : z <> RtoC 0) by (intros ->; simpl in N; lra).
  destruct (H z NZ) as [H1 H2]. apply cexp_inj; [rewrite H1, cexp_clog by exact S0; reflexivity|exact H2|]. unfold clog. simpl. apply atan_strip.
Qed.
Lemma plog_norm : forall cln, principal_log cln -> forall z, z <> RtoC 0 -> fst (cln z) = ln (fst z ^ 2 + snd z ^ 2) / 2.
Proof.
  intros cln H z NZ. destruct (H z NZ) as [H1 _]. rewrite <- H1 at 2 3. rewrite cexp_norm. replace (exp (fst (cln z)) ^ 2) with (exp (2 * fst (cln z))).
  - rewrite ln_exp. field.
  - replace (2 * fst (cln z)) with (fst (cln z) + fst (cln z)) by ring. rewrite exp_plus. ring.
Qed.
(** Both branches exist. *)
Definition plog (z : C) : C := if Rlt_dec 0 (sqrt (fst z ^ 2 + snd z ^ 2) + fst z) then clog z else (ln (- fst z), PI).
Lemma plog_principal : principal_log plog.
Proof.
  intros z NZ. unfold plog. destruct (Rlt_dec 0 (sqrt (fst z ^ 2 + snd z ^ 2) + fst z)) as [S0|S0].
  - split; [apply cexp_clog; exact S0|unfold clog; simpl; apply atan_strip].
  - pose proof (cnz z NZ) as N. destruct z as [x y]. cbn [fst snd] in *. assert (Q : 0 <= x ^ 2 + y ^ 2) by nra. pose proof (sqrt_pos (x ^ 2 + y ^ 2)) as P. pose proof (sqrt_sqrt _ Q) as SS.
    assert (Y : y = 0) by nra. subst y. assert (X : x < 0).
    { destruct (Rlt_or_le x 0) as [L|L]; [exact L|exfalso]. assert (x = 0) by lra. subst x. apply N. ring. }
    split; [|simpl; pose proof PI_RGT_0; lra]. unfold cexp. cbn [fst snd]. rewrite exp_ln by lra. rewrite cos_PI, sin_PI. f_equal; ring.
Qed.
Definition psqrt (z : C) : C :=
  let n := sqrt (fst z ^ 2 + snd z ^ 2) in (sqrt ((n + fst z) / 2), (if Rle_dec 0 (snd z) then 1 else - 1) * sqrt ((n - fst z) / 2)).
Lemma psqrt_principal : principal_sqrt psqrt.
Proof.
  intros [x y]. unfold psqrt. cbn [fst snd]. split; [|simpl; apply sqrt_pos]. set (n := sqrt (x ^ 2 + y ^ 2)).
  assert (Q : 0 <= x ^ 2 + y ^ 2) by nra. assert (N2 : n * n = x ^ 2 + y ^ 2) by (apply sqrt_sqrt; exact Q). assert (N0 : 0 <= n) by apply sqrt_pos. clearbody n.
  assert (B1 : 0 <= n + x) by nra. assert (B2 : 0 <= n - x) by nra.
  assert (S1 : sqrt ((n + x) / 2) * sqrt ((n + x) / 2) = (n + x) / 2) by (apply sqrt_sqrt; lra).
  assert (S2 : sqrt ((n - x) / 2) * sqrt ((n - x) / 2) = (n - x) / 2) by (apply sqrt_sqrt; lra).
  assert (S3 : sqrt ((n + x) / 2) * sqrt ((n - x) / 2) = Rabs y / 2).
  { rewrite <- sqrt_mult by lra. replace ((n + x) / 2 * ((n - x) / 2)) with ((Rabs y / 2) * (Rabs y / 2)).
    - apply sqrt_square. pose proof (Rabs_pos y). lra.
    - assert (A : Rabs y * Rabs y = y * y) by (rewrite <- Rabs_mult; apply Rabs_pos_eq; nra). nra. }
  set (p := sqrt ((n + x) / 2)) in *. set (w := sqrt ((n - x) / 2)) in *. clearbody p w. unfold Cmult. cbn [fst snd].
  destruct (Rle_dec 0 y) as [L|L]; f_equal; [nra| |nra|].
  - rewrite Rabs_pos_eq in S3 by exact L. lra.
  - rewrite Rabs_left in S3 by lra. lra.
Qed.

(** ** The argument of the logarithm winds around the origin *)
Lemma cos_three_quarters : forall x, 3 * (PI / 4) <= x <= 5 * (PI / 4) -> cos x <= - (/ 2).
Proof.
  intros x H. pose proof PI_RGT_0. assert (K : cos (PI / 4) <= cos (Rabs (x - PI))).
  { assert (A : Rabs (x - PI) <= PI / 4) by (apply Rabs_le; lra). pose proof (Rabs_pos (x - PI)). apply cos_decr_1; lra. }
  rewrite cos_PI4 in K. assert (E : cos (Rabs (x - PI)) = - cos x).
  { unfold Rabs. destruct (Rcase_abs (x - PI)); [rewrite cos_neg|]; rewrite cos_minus, cos_PI, sin_PI; ring. }
  rewrite E in K. assert (/ 2 <= 1 / sqrt 2); [|lra]. pose proof (sqrt_lt_R0 2 ltac:(lra)). apply Rmult_le_reg_r with (sqrt 2); [assumption|]. unfold Rdiv. rewrite Rmult_assoc, Rinv_l by lra.
  assert (sqrt 2 * sqrt 2 = 2) by (apply sqrt_sqrt; lra). nra.
Qed.
Lemma sin_quarters : / 2 <= sin (3 * (PI / 4)) /\ sin (5 * (PI / 4)) <= - (/ 2).
Proof.
  rewrite sin_3PI4, sin_5PI4. pose proof (sqrt_lt_R0 2 ltac:(lra)). assert (/ 2 <= 1 / sqrt 2); [|lra]. apply Rmult_le_reg_r with (sqrt 2); [assumption|]. unfold Rdiv. rewrite Rmult_assoc, Rinv_l by lra.
  assert (sqrt 2 * sqrt 2 = 2) by (apply sqrt_sqrt; lra). nra.
Qed.
Lemma INR_above : forall x, exists n, x < INR n.
Proof. intro x. destruct (nfloor_ex (Rmax 0 x) (Rmax_l 0 x)) as [n [_ Hn]]. exists (S n). rewrite S_INR. pose proof (Rmax_r 0 x). lra. Qed.
Lemma period_z : forall n x, cos (x + 2 * INR n * PI) = cos x /\ sin (x + 2 * INR n * PI) = sin x.
Proof. intros. split; [apply cos_period|apply sin_period]. Qed.
Lemma winds_pos : forall w l T, 0 < w -> exists t1 t2, T < t1 < t2 /\ (forall t, t1 <= t <= t2 -> cos (w * t + l) <= - (/ 2)) /\ / 2 <= sin (w * t1 + l) /\ sin (w * t2 + l) <= - (/ 2).
Proof.
  intros w l T Hw. pose proof PI_RGT_0 as HP. destruct sin_quarters as [Q1 Q2].
  destruct (INR_above ((w * T + l) / PI + 1)) as [n Hn].
  assert (B : w * T + l < 2 * INR n * PI + 3 * (PI / 4)).
  { assert ((w * T + l) / PI < INR n) by lra. assert (K : (w * T + l) / PI * PI < INR n * PI) by (apply Rmult_lt_compat_r; assumption). unfold Rdiv in K. rewrite Rmult_assoc, Rinv_l, Rmult_1_r in K by lra. pose proof (pos_INR n). nra. }
  exists ((3 * (PI / 4) + 2 * INR n * PI - l) / w), ((5 * (PI / 4) + 2 * INR n * PI - l) / w).
  assert (M1 : w * ((3 * (PI / 4) + 2 * INR n * PI - l) / w) + l = 3 * (PI / 4) + 2 * INR n * PI) by (field; lra).
  assert (M2 : w * ((5 * (PI / 4) + 2 * INR n * PI - l) / w) + l = 5 * (PI / 4) + 2 * INR n * PI) by (field; lra).
  split; [|split; [|split]].
  - split; apply Rmult_lt_reg_l with w; try assumption; lra.
  - intros t [T1 T2]. replace (w * t + l) with ((w * t + l - 2 * INR n * PI) + 2 * INR n * PI) by ring. rewrite cos_period. apply cos_three_quarters.
    apply (Rmult_le_compat_l w) in T1; [|lra]. apply (Rmult_le_compat_l w) in T2; [|lra]. lra.
  - rewrite M1, sin_period. exact Q1.
  - rewrite M2, sin_period. exact Q2.
Qed.
Lemma winds : forall w l T, w <> 0 -> exists t1 t2 e, T < t1 < t2 /\ (e = 1 \/ e = -1) /\ (forall t, t1 <= t <= t2 -> cos (w * t + l) <= - (/ 2)) /\ / 2 <= e * sin (w * t1 + l) /\ e * sin (w * t2 + l) <= - (/ 2).
Proof.
  intros w l T Hw. destruct (Rlt_or_le 0 w) as [L|L].
  - destruct (winds_pos w l T L) as (t1 & t2 & A & B & C0 & D). exists t1, t2, 1. split; [exact A|split; [left; reflexivity|split; [exact B|lra]]].
  - assert (L' : 0 < - w) by lra. destruct (winds_pos (- w) (- l) T L') as (t1 & t2 & A & B & C0 & D). exists t1, t2, (-1).
    assert (E : forall t, w * t + l = - (- w * t + - l)) by (intro; ring). split; [exact A|split; [right; reflexivity|split; [|split]]].
    + intros t Ht. rewrite E, cos_neg. apply B. exact Ht.
    + rewrite E, sin_neg. lra.
    + rewrite E, sin_neg. lra.
Qed.

(** A number with negative real part keeps its principal logarithm away from the real axis. *)
Lemma log_left : forall cln z, principal_log cln -> fst z < 0 -> forall m, 0 < m < 1 -> sin (m * snd (cln z)) <> 0.
Proof.
  intros cln z H N m M E. assert (NZ : z <> RtoC 0) by (intros ->; simpl in N; lra). destruct (H z NZ) as [H1 H2].
  assert (K : m * snd (cln z) = 0) by (apply sin_zero_strip; [nra|exact E]). assert (Z : snd (cln z) = 0) by nra.
  apply (f_equal fst) in H1. unfold cexp in H1. simpl in H1. rewrite Z, cos_0 in H1. pose proof (exp_pos (fst (cln z))). lra.
Qed.
Lemma log_sign : forall cln z, principal_log cln -> forall m, 0 < m < 1 -> forall e, (e = 1 \/ e = -1) -> (0 < e * snd z -> 0 < e * sin (m * snd (cln z))) /\ (e * snd z < 0 -> e * sin (m * snd (cln z)) < 0).
Proof.
  intros cln z H m M e He.
  assert (P : 0 < snd z -> 0 < sin (m * snd (cln z))).
  { intro Q. assert (NZ : z <> RtoC 0) by (intros ->; simpl in Q; lra). destruct (H z NZ) as [H1 H2]. apply (f_equal snd) in H1. unfold cexp in H1. simpl in H1.
    assert (0 < snd (cln z)).
    { destruct (Rlt_or_le 0 (snd (cln z))) as [L|L]; [exact L|exfalso]. pose proof (exp_pos (fst (cln z))). assert (0 <= sin (- snd (cln z))) by (apply sin_ge_0; lra). rewrite sin_neg in *. nra. }
    apply sin_gt_0; nra. }
  assert (N : snd z < 0 -> sin (m * snd (cln z)) < 0).
  { intro Q. assert (NZ : z <> RtoC 0) by (intros ->; simpl in Q; lra). destruct (H z NZ) as [H1 H2]. apply (f_equal snd) in H1. unfold cexp in H1. simpl in H1.
    assert (snd (cln z) < 0).
    { destruct (Rlt_or_le (snd (cln z)) 0) as [L|L]; [exact L|exfalso]. pose proof (exp_pos (fst (cln z))). assert (0 <= sin (snd (cln z))) by (apply sin_ge_0; lra). nra. }
    assert (0 < sin (- (m * snd (cln z)))) by (apply sin_gt_0; nra). rewrite sin_neg in *. lra. }
  destruct He as [-> | ->]; split; intro Q.
  - assert (0 < snd z) by lra. apply P in H0. lra.
  - assert (snd z < 0) by lra. apply N in H0. lra.
  - assert (snd z < 0) by lra. apply N in H0. lra.
  - assert (0 < snd z) by lra. apply P in H0. lra.
Qed.
Lemma ivt_sign : forall (f : R -> R) a b e, (e = 1 \/ e = -1) -> a < b -> (forall x, a <= x <= b -> continuous f x) -> 0 < e * f a -> e * f b < 0 -> exists x, a <= x <= b /\ f x = 0.
Proof.
  intros f a b e He Hab HC HA HB. destruct (Ranalysis5.IVT_interv (fun x => - e * f x) a b) as (x & Hx & E).
  - intros x Hx. apply continuity_pt_filterlim. apply (continuous_mult (fun _ => - e) f); [apply continuous_const|apply HC; exact Hx].
  - exact Hab.
  - lra.
  - lra.
  - exists x. split; [exact Hx|]. destruct He as [-> | ->]; lra.
Qed.

(** ** Continuity of complex functions of a real variable *)
Definition ccont (F : R -> C) (t : R) : Prop := continuous (fun y => fst (F y)) t /\ continuous (fun y => snd (F y)) t.
Lemma cc_mult : forall F G t, ccont F t -> ccont G t -> ccont (fun y => Cmult (F y) (G y)) t.
Proof.
  intros F G t [F1 F2] [G1 G2]. split; simpl.
  - apply (continuous_minus (fun y => fst (F y) * fst (G y)) (fun y => snd (F y) * snd (G y))); [apply (continuous_mult (fun y => fst (F y)) (fun y => fst (G y)))|apply (continuous_mult (fun y => snd (F y)) (fun y => snd (G y)))]; assumption.
  - apply (continuous_plus (fun y => fst (F y) * snd (G y)) (fun y => snd (F y) * fst (G y))); [apply (continuous_mult (fun y => fst (F y)) (fun y => snd (G y)))|apply (continuous_mult (fun y => snd (F y)) (fun y => fst (G y)))]; assumption.
Qed.
Lemma cc_ext : forall F G t, (forall y, F y = G y) -> ccont F t -> ccont G t.
Proof. intros F G t E [F1 F2]. split; [apply (continuous_ext (fun y => fst (F y)))|apply (continuous_ext (fun y => snd (F y)))]; try assumption; intro; rewrite E; reflexivity. Qed.
Lemma cc_const : forall c t, ccont (fun _ => c) t.
Proof. intros. split; apply continuous_const. Qed.

Section Trap.
  Variables (csqrt cln : C -> C).
  Hypothesis Hsqrt : principal_sqrt csqrt.
  Hypothesis Hlog : principal_log cln.
  Variables (v r q rho kappa theta sigma s : R) (j : switch) (phi : R).
  Hypothesis Hsigma : 0 < sigma.
  Hypothesis Hrho : -1 < rho < 1.
  Hypothesis Hphi : phi <> 0.
  Hypothesis Hkappa : 0 < kappa /\ rho * sigma <= kappa.
  Let f (t : R) : C := h_f csqrt cln v t r q rho kappa theta sigma s j phi.
  Let Z (t : R) : C := log_argument csqrt t rho kappa sigma j phi.
  Let M : R := 2 * kappa * theta / sigma ^ 2.
  Let lead : C := Cplus (Cminus (RtoC (h_b rho kappa sigma j)) (Cmult (Cmult (RtoC (rho * sigma)) Ci) (RtoC phi))) (h_d csqrt rho kappa sigma j phi).
  Let rest (t : R) : C := Cplus (Cplus (rest_of r q kappa theta sigma phi lead t) (Cmult (h_D csqrt t rho kappa sigma j phi) (RtoC v))) (Cmult (Cmult Ci phi) (RtoC (ln s))).
  Lemma rest_cc : forall t, 0 <= t -> ccont (fun y => cexp (Copp (rest y))) t.
  Proof.
    intros t Ht. destruct (rest_d r q kappa theta sigma phi lead t) as [l L].
    assert (D : exists l', cderive rest t l').
    { eexists. unfold rest. apply cd_plus; [|apply cd_const]. apply cd_plus; [exact L|]. apply (cd_mult (fun y => h_D csqrt y rho kappa sigma j phi) (fun _ => RtoC v)); [apply riccati_D; assumption|apply cd_const]. }
    destruct D as [l' D]. eapply cd_cont. apply cd_cexp. apply (cd_ext (fun y => Cminus (RtoC 0) (rest y))); [intro; ring|]. apply (cd_minus (fun _ => RtoC 0) rest); [apply cd_const|exact D].
  Qed.
  Lemma f_factor : forall t, Cmult (f t) (cexp (Copp (rest t))) = cexp (Copp (Cmult (RtoC M) (cln (Z t)))).
  Proof.
    intro t. unfold f, h_f. rewrite <- cexp_add. f_equal. rewrite (Ct_split csqrt cln r q rho kappa theta sigma j phi Hsigma t). unfold rest. fold lead. fold (Z t). fold M. ring.
  Qed.
  Lemma f_jumps : 0 < M < 1 -> h_b rho kappa sigma j * rho + h_u j * sigma <> 0 -> exists t, 0 < t /\ ~ ccont f t.
  Proof.
    intros HM HW. apply Classical_Prop.NNPP. intro H.
    assert (CF : forall t, 0 < t -> ccont f t) by (intros t Ht; apply Classical_Prop.NNPP; intro K; apply H; exists t; tauto).
    set (d := h_d csqrt rho kappa sigma j phi) in *.
    set (K := Cdiv lead (Cmult (RtoC 2) d)). set (K' := Cdiv (Cminus d (Cminus lead d)) (Cmult (RtoC 2) d)).
    assert (DP : 0 < fst d) by (destruct (d_parts csqrt Hsqrt rho kappa sigma j phi Hsigma Hrho Hphi) as (P & _); exact P).
    assert (DI : snd d <> 0) by (apply (d_im csqrt Hsqrt rho kappa sigma j phi Hsigma Hrho Hphi); exact HW).
    assert (DN : d <> RtoC 0) by (intro Q; rewrite Q in DP; simpl in DP; lra).
    assert (LN : lead <> RtoC 0) by (apply (plus_nz csqrt Hsqrt rho kappa sigma j phi Hsigma Hrho Hphi Hkappa)).
    assert (TW : RtoC 2 <> RtoC 0) by (intro Q; apply (f_equal fst) in Q; simpl in Q; lra).
    assert (KN : K <> RtoC 0).
    { intro Q. apply LN. transitivity (Cmult K (Cmult (RtoC 2) d)); [unfold K; field; split; assumption|rewrite Q; ring]. }
    assert (ZF : forall t, Z t = Cplus (cexp (Cplus (Cmult d (RtoC t)) (cln K))) K').
    { intro t. rewrite cexp_add, (proj1 (Hlog K KN)). unfold Z. rewrite (Zt_form csqrt Hsqrt rho kappa sigma j phi Hsigma Hrho Hphi Hkappa t). fold d lead. unfold K, K'. unfold Cdiv. unfold lead. fold d. ring. }
    set (L := cln K) in *.
    destruct (INR_above (2 * (Rabs (fst K') + Rabs (snd K')) + 1)) as [n Hn].
    (* times past which the constant term is negligible *)
    set (T := Rmax 0 ((ln (2 * (Rabs (fst K') + Rabs (snd K')) + 1) - fst L) / fst d)).
    assert (BIG : forall t, T < t -> 2 * (Rabs (fst K') + Rabs (snd K')) < exp (fst d * t + fst L)).
    { intros t Ht. assert (B : (ln (2 * (Rabs (fst K') + Rabs (snd K')) + 1) - fst L) / fst d < t) by (eapply Rle_lt_trans; [apply Rmax_r|exact Ht]).
      pose proof (Rabs_pos (fst K')). pose proof (Rabs_pos (snd K')).
      apply (Rmult_lt_compat_r (fst d)) in B; [|exact DP]. unfold Rdiv in B. rewrite Rmult_assoc, Rinv_l, Rmult_1_r in B by lra.
      assert (E : exp (ln (2 * (Rabs (fst K') + Rabs (snd K')) + 1)) < exp (fst d * t + fst L)) by (apply exp_increasing; lra). rewrite exp_ln in E by lra. lra. }
    destruct (winds (snd d) (snd L) T DI) as (t1 & t2 & e & (T1 & T2) & He & CO & S1 & S2).
    assert (T0 : 0 <= T) by apply Rmax_l.
    assert (ZR : forall t, fst (Z t) = exp (fst d * t + fst L) * cos (snd d * t + snd L) + fst K').
    { intro t. rewrite ZF. unfold cexp. simpl. replace (fst d * t - snd d * 0 + fst L) with (fst d * t + fst L) by ring. replace (fst d * 0 + snd d * t + snd L) with (snd d * t + snd L) by ring. reflexivity. }
    assert (ZI : forall t, snd (Z t) = exp (fst d * t + fst L) * sin (snd d * t + snd L) + snd K').
    { intro t. rewrite ZF. unfold cexp. simpl. replace (fst d * t - snd d * 0 + fst L) with (fst d * t + fst L) by ring. replace (fst d * 0 + snd d * t + snd L) with (snd d * t + snd L) by ring. reflexivity. }
    assert (NEG : forall t, t1 <= t <= t2 -> fst (Z t) < 0).
    { intros t Ht. rewrite ZR. assert (B := BIG t ltac:(lra)). specialize (CO t Ht). pose proof (Rle_abs (fst K')). pose proof (Rabs_pos (snd K')). pose proof (exp_pos (fst d * t + fst L)). nra. }
    assert (P1 : 0 < e * snd (Z t1)).
    { rewrite ZI. assert (B := BIG t1 T1). pose proof (Rle_abs (snd K')). pose proof (Rle_abs (- snd K')) as AB. rewrite Rabs_Ropp in AB. pose proof (Rabs_pos (fst K')). set (x := exp (fst d * t1 + fst L)) in *. clearbody x.
      assert (0 < x) by (pose proof (Rabs_pos (snd K')); lra). rewrite Rmult_plus_distr_l. replace (e * (x * sin (snd d * t1 + snd L))) with (x * (e * sin (snd d * t1 + snd L))) by ring.
      assert (x * / 2 <= x * (e * sin (snd d * t1 + snd L))) by (apply Rmult_le_compat_l; lra). destruct He as [-> | ->]; lra. }
    assert (P2 : e * snd (Z t2) < 0).
    { rewrite ZI. assert (B := BIG t2 ltac:(lra)). pose proof (Rle_abs (snd K')). pose proof (Rle_abs (- snd K')) as AB. rewrite Rabs_Ropp in AB. pose proof (Rabs_pos (fst K')). set (x := exp (fst d * t2 + fst L)) in *. clearbody x.
      assert (0 < x) by (pose proof (Rabs_pos (snd K')); lra). rewrite Rmult_plus_distr_l. replace (e * (x * sin (snd d * t2 + snd L))) with (x * (e * sin (snd d * t2 + snd L))) by ring.
      assert (x * (e * sin (snd d * t2 + snd L)) <= x * - (/ 2)) by (apply Rmult_le_compat_l; lra). destruct He as [-> | ->]; lra. }
    assert (UI : forall t, snd (cexp (Copp (Cmult (RtoC M) (cln (Z t))))) = - exp (- M * fst (cln (Z t))) * sin (M * snd (cln (Z t)))).
    { intro t. unfold cexp. simpl. replace (- (M * snd (cln (Z t)) + 0 * fst (cln (Z t)))) with (- (M * snd (cln (Z t)))) by ring. rewrite sin_neg.
      replace (- (M * fst (cln (Z t)) - 0 * snd (cln (Z t)))) with (- M * fst (cln (Z t))) by ring. ring. }
    destruct (ivt_sign (fun t => snd (cexp (Copp (Cmult (RtoC M) (cln (Z t)))))) t1 t2 (- e)) as (t & Ht & E).
    - destruct He as [-> | ->]; [right|left]; ring.
    - exact T2.
    - intros t Ht. apply (cc_ext (fun y => Cmult (f y) (cexp (Copp (rest y))))); [intro; apply f_factor|]. apply cc_mult; [apply CF; lra|apply rest_cc; lra].
    - rewrite UI. pose proof (proj1 (log_sign cln (Z t1) Hlog M HM e He) P1). pose proof (exp_pos (- M * fst (cln (Z t1)))). nra.
    - rewrite UI. pose proof (proj2 (log_sign cln (Z t2) Hlog M HM e He) P2). pose proof (exp_pos (- M * fst (cln (Z t2)))). nra.
    - rewrite UI in E. pose proof (exp_pos (- M * fst (cln (Z t)))) as EP. apply (log_left cln (Z t) Hlog (NEG t Ht) M HM).
      apply Rmult_integral in E. destruct E as [E|E]; [lra|exact E].
  Qed.
End Trap.

(** ** Separating the terms of a sum of exponentials *)
Section Separate.
  Variable h : R.
  Hypothesis Hh : 0 < h.
  Definition sterm : Type := C * (R -> C).
  Definition tv (m : sterm) (x t : R) : R := fst (Cmult (snd m t) (cexp (Cmult (fst m) (RtoC x)))).
  Definition tsum (l : list sterm) (x t : R) : R := rsum (map (fun m => tv m x t) l).
  Definition factor (mu lam : C) : C :=
    Cminus (Cplus (Cmult (RtoC (exp (- (fst mu * h)))) (cexp (Cmult lam (RtoC h)))) (Cmult (RtoC (exp (fst mu * h))) (cexp (Cmult lam (RtoC (- h)))))) (RtoC (2 * cos (snd mu * h))).
  Lemma kill_term : forall mu m x t, exp (- (fst mu * h)) * tv m (x + h) t + exp (fst mu * h) * tv m (x - h) t - 2 * cos (snd mu * h) * tv m x t
    = tv (fst m, fun y => Cmult (factor mu (fst m)) (snd m y)) x t.
  Proof.
    intros mu [lam c] x t. unfold tv. cbn [fst snd].
    assert (E1 : cexp (Cmult lam (RtoC (x + h))) = Cmult (cexp (Cmult lam (RtoC x))) (cexp (Cmult lam (RtoC h)))) by (rewrite <- cexp_add; f_equal; rewrite RtoC_plus; ring).
    assert (E2 : cexp (Cmult lam (RtoC (x - h))) = Cmult (cexp (Cmult lam (RtoC x))) (cexp (Cmult lam (RtoC (- h))))) by (rewrite <- cexp_add; f_equal; unfold Rminus; rewrite RtoC_plus; ring).
    rewrite E1, E2. unfold factor. set (p := exp (- (fst mu * h))). set (w := exp (fst mu * h)). set (z := 2 * cos (snd mu * h)).
    destruct (cexp (Cmult lam (RtoC x))) as [a1 a2], (cexp (Cmult lam (RtoC h))) as [b1 b2], (cexp (Cmult lam (RtoC (- h)))) as [c1 c2], (c t) as [d1 d2]. clearbody p w z. simpl. ring.
  Qed.
  Lemma kill_sum : forall mu l x t, exp (- (fst mu * h)) * tsum l (x + h) t + exp (fst mu * h) * tsum l (x - h) t - 2 * cos (snd mu * h) * tsum l x t
    = tsum (map (fun m => (fst m, fun y => Cmult (factor mu (fst m)) (snd m y))) l) x t.
  Proof.
    intros mu l x t. unfold tsum. induction l as [|m l IH]; simpl; [ring|]. rewrite <- IH, <- kill_term. ring.
  Qed.
  Lemma factor_parts : forall mu lam, fst (factor mu lam) = (exp ((fst lam - fst mu) * h) + exp (- ((fst lam - fst mu) * h))) * cos (snd lam * h) - 2 * cos (snd mu * h)
    /\ snd (factor mu lam) = (exp ((fst lam - fst mu) * h) - exp (- ((fst lam - fst mu) * h))) * sin (snd lam * h).
  Proof.
    intros [a b] [c d]. unfold factor, cexp. cbn [fst snd Cmult Cplus Cminus Copp RtoC].
    replace (c * h - d * 0) with (c * h) by ring. replace (c * 0 + d * h) with (d * h) by ring. replace (c * - h - d * 0) with (- (c * h)) by ring. replace (c * 0 + d * - h) with (- (d * h)) by ring.
    rewrite cos_neg, sin_neg. replace ((c - a) * h) with (- (a * h) + c * h) by ring. replace (- (- (a * h) + c * h)) with (a * h + - (c * h)) by ring. rewrite !exp_plus. split; ring.
  Qed.
  Lemma factor_same : forall mu, factor mu mu = RtoC 0.
  Proof.
    intro mu. destruct (factor_parts mu mu) as [A B]. destruct (factor mu mu) as [x y]. cbn [fst snd] in A, B. unfold RtoC. f_equal; [rewrite A|rewrite B];
    replace ((fst mu - fst mu) * h) with 0 by ring; rewrite Ropp_0, exp_0; ring.
  Qed.
  Lemma cos_inj_neg : forall x y, - PI < x < 0 -> - PI < y < 0 -> cos x = cos y -> x = y.
  Proof.
    intros x y Hx Hy E. rewrite <- (cos_neg x), <- (cos_neg y) in E. destruct (Rtotal_order x y) as [L|[L|L]]; [|exact L|]; exfalso.
    - assert (cos (- x) < cos (- y)) by (apply cos_decreasing_1; lra). lra.
    - assert (cos (- y) < cos (- x)) by (apply cos_decreasing_1; lra). lra.
  Qed.
  Lemma factor_nz : forall mu lam, - PI < snd mu * h < 0 -> - PI < snd lam * h < 0 -> lam <> mu -> factor mu lam <> RtoC 0.
  Proof.
    intros mu lam Hm Hl N K. destruct (factor_parts mu lam) as [A B]. rewrite K in A, B. cbn [fst snd RtoC] in A, B. apply N.
    assert (SN : sin (snd lam * h) <> 0) by (intro Q; apply sin_zero_strip in Q; lra).
    assert (E : exp ((fst lam - fst mu) * h) = exp (- ((fst lam - fst mu) * h))) by nra.
    apply exp_inv in E as E0. assert (D0 : fst lam - fst mu = 0) by nra. rewrite D0, Rmult_0_l, Ropp_0, exp_0 in A.
    assert (C0 : cos (snd lam * h) = cos (snd mu * h)) by lra. apply cos_inj_neg in C0; [|assumption|assumption]. apply Rmult_eq_reg_r in C0; [|lra].
    destruct lam, mu. cbn [fst snd] in *. f_equal; lra.
  Qed.
  Lemma cc_scale_inv : forall c F t, c <> RtoC 0 -> ccont (fun y => Cmult c (F y)) t -> ccont F t.
  Proof. intros c F t N H. apply (cc_ext (fun y => Cmult (Cinv c) (Cmult c (F y)))); [intro; field; exact N|]. apply (cc_mult (fun _ => Cinv c)); [apply cc_const|exact H]. Qed.
  Lemma tv_cont : forall m x t, ccont (snd m) t -> continuous (fun y => tv m x y) t.
  Proof. intros m x t H. apply (cc_mult (snd m) (fun _ => cexp (Cmult (fst m) (RtoC x)))); [exact H|apply cc_const]. Qed.
  Lemma tsum_cont : forall l x t, (forall m, In m l -> ccont (snd m) t) -> continuous (fun y => tsum l x y) t.
  Proof.
    intros l x t H. unfold tsum. induction l as [|m l IH]; simpl; [apply continuous_const|].
    apply (continuous_plus (fun y => tv m x y) (fun y => rsum (map (fun m => tv m x y) l))); [apply tv_cont; apply H; left; reflexivity|apply IH; intros; apply H; right; assumption].
  Qed.
  Lemma one_term : forall m t, - PI < snd (fst m) * h < 0 -> (forall x, continuous (fun y => tv m x y) t) -> ccont (snd m) t.
  Proof.
    intros [lam c] t Hl H. cbn [fst snd] in *. assert (LN : snd lam <> 0) by (intro Q; rewrite Q, Rmult_0_l in Hl; lra). split.
    - apply (continuous_ext (fun y => tv (lam, c) 0 y)); [|apply H]. intro y. unfold tv, cexp. cbn [fst snd Cmult RtoC]. rewrite !Rmult_0_r, Rminus_0_r, Rplus_0_l, exp_0, cos_0, sin_0. match goal with |- ?u = ?v => change (@eq R u v) end. ring.
    - set (x := PI / (2 * snd lam)). set (e := exp (fst lam * x)). assert (EP : 0 < e) by apply exp_pos.
      apply (continuous_ext (fun y => - (/ e) * tv (lam, c) x y)); [|apply (continuous_mult (fun _ => - (/ e)) (fun y => tv (lam, c) x y)); [apply continuous_const|apply H]].
      intro y. unfold tv, cexp. cbn [fst snd Cmult RtoC]. replace (fst lam * x - snd lam * 0) with (fst lam * x) by ring. fold e. replace (fst lam * 0 + snd lam * x) with (PI / 2) by (unfold x; field; exact LN).
      rewrite cos_PI2, sin_PI2. match goal with |- ?u = ?v => change (@eq R u v) end. field. lra.
  Qed.
  Lemma separate : forall n l m t, length l = n -> ~ In (fst m) (map fst l) -> - PI < snd (fst m) * h < 0 -> (forall m', In m' l -> - PI < snd (fst m') * h < 0) ->
    (forall x, continuous (fun y => tv m x y + tsum l x y) t) -> ccont (snd m) t.
  Proof.
    induction n as [|n IH]; intros l [lam c] t Hlen NI HM HB HC.
    - destruct l; [|discriminate]. apply one_term; [exact HM|]. intro x. apply (continuous_ext (fun y => tv (lam, c) x y + tsum [] x y)); [|apply HC].
      intro y. unfold tsum. simpl. match goal with |- ?u = ?v => change (@eq R u v) end. ring.
    - destruct l as [|[mu c'] l]; [discriminate|]. simpl in Hlen. injection Hlen as Hlen. cbn [fst snd map] in *.
      assert (LM : lam <> mu) by (intros ->; apply NI; left; reflexivity).
      apply (cc_scale_inv (factor mu lam)); [apply factor_nz; [apply (HB (mu, c')); left; reflexivity|exact HM|exact LM]|].
      apply (IH (map (fun m => (fst m, fun y => Cmult (factor mu (fst m)) (snd m y))) l) (lam, fun y => Cmult (factor mu lam) (c y)) t).
      + rewrite map_length. exact Hlen.
      + rewrite map_map. cbn [fst]. intro K. apply NI. right. exact K.
      + exact HM.
      + intros m0 H0. apply in_map_iff in H0. destruct H0 as (m1 & <- & H1). cbn [fst]. apply HB. right. exact H1.
      + intro x. apply (continuous_ext (fun y => exp (- (fst mu * h)) * (tv (lam, c) (x + h) y + tsum ((mu, c') :: l) (x + h) y) + exp (fst mu * h) * (tv (lam, c) (x - h) y + tsum ((mu, c') :: l) (x - h) y) - 2 * cos (snd mu * h) * (tv (lam, c) x y + tsum ((mu, c') :: l) x y))).
        * intro y. match goal with |- ?u = ?v => change (@eq R u v) end.
          transitivity ((exp (- (fst mu * h)) * tv (lam, c) (x + h) y + exp (fst mu * h) * tv (lam, c) (x - h) y - 2 * cos (snd mu * h) * tv (lam, c) x y) + (exp (- (fst mu * h)) * tsum ((mu, c') :: l) (x + h) y + exp (fst mu * h) * tsum ((mu, c') :: l) (x - h) y - 2 * cos (snd mu * h) * tsum ((mu, c') :: l) x y)); [ring|].
          rewrite kill_sum, kill_term. cbn [fst snd]. f_equal.
          match goal with |- _ = tsum ?L ?X ?Y => transitivity (tv (mu, fun y0 => Cmult (factor mu mu) (c' y0)) x y + tsum L X Y); [reflexivity|] end.
          assert (Z0 : tv (mu, fun y0 => Cmult (factor mu mu) (c' y0)) x y = 0) by (unfold tv; cbn [fst snd]; rewrite factor_same; simpl; ring). rewrite Z0. ring.
        * set (G := fun x y => tv (lam, c) x y + tsum ((mu, c') :: l) x y).
          apply (continuous_minus (fun y => exp (- (fst mu * h)) * G (x + h) y + exp (fst mu * h) * G (x - h) y) (fun y => 2 * cos (snd mu * h) * G x y)).
          -- apply (continuous_plus (fun y => exp (- (fst mu * h)) * G (x + h) y) (fun y => exp (fst mu * h) * G (x - h) y)).
             ++ apply (continuous_mult (fun _ => exp (- (fst mu * h))) (fun y => G (x + h) y)); [apply continuous_const|apply HC].
             ++ apply (continuous_mult (fun _ => exp (fst mu * h)) (fun y => G (x - h) y)); [apply continuous_const|apply HC].
          -- apply (continuous_mult (fun _ => 2 * cos (snd mu * h)) (fun y => G x y)); [apply continuous_const|apply HC].
  Qed.
End Separate.

(** ** The jump reaches the price *)
Lemma tsum_app : forall a b x t, tsum (a ++ b) x t = tsum a x t + tsum b x t.
Proof. intros a b x t. unfold tsum. induction a as [|m a IH]; simpl; [ring|]. rewrite IH. ring. Qed.
Section Jump.
  Variables (csqrt cln : C -> C).
  Variables (v r q rho kappa theta sigma s : R).
  (** the quadrature rule of the price as a function of the logarithm of the strike *)
  Let w0 : R := / PI * (/ 2 * (50 - 1 / 100000)).
  Definition term (j : switch) (n : R * R) : sterm :=
    ((match j with One => 0 | Two => 1 end, - visited n),
     fun t => Cmult (RtoC (match j with One => s * exp (- q * t) | Two => - exp (- r * t) end * w0 * snd n)) (Cdiv (h_f csqrt cln v t r q rho kappa theta sigma s j (visited n)) (Cmult Ci (visited n)))).
  Lemma term_value : forall j n x t, tv (term j n) x t = match j with One => s * exp (- q * t) | Two => - (exp x * exp (- r * t)) end * (w0 * (snd n * h_re csqrt cln v t r q rho kappa theta sigma s (exp x) j (visited n))).
  Proof.
    intros j n x t. unfold tv, term. cbn [fst snd]. unfold h_re. rewrite ln_exp. set (F := h_f csqrt cln v t r q rho kappa theta sigma s j (visited n)). set (p := visited n).
    unfold Cdiv. set (I := Cinv (Cmult Ci (RtoC p))).
    assert (E : cexp (Cmult (Cmult (Copp Ci) (RtoC p)) (RtoC x)) = (cos (p * x), - sin (p * x))).
    { unfold cexp. cbn [fst snd Cmult Copp Ci RtoC]. replace ((- 0 * p - - (1) * 0) * x - (- 0 * 0 + - (1) * p) * 0) with 0 by ring. replace ((- 0 * p - - (1) * 0) * 0 + (- 0 * 0 + - (1) * p) * x) with (- (p * x)) by ring.
      rewrite exp_0, cos_neg, sin_neg. f_equal; ring. }
    rewrite E. destruct F as [f1 f2], I as [i1 i2]. destruct j; unfold cexp; cbn [fst snd Cmult RtoC].
    - replace (0 * x - - p * 0) with 0 by ring. replace (0 * 0 + - p * x) with (- (p * x)) by ring. rewrite exp_0, cos_neg, sin_neg. ring.
    - replace (1 * x - - p * 0) with x by ring. replace (1 * 0 + - p * x) with (- (p * x)) by ring. rewrite cos_neg, sin_neg. ring.
  Qed.
  Lemma P_terms : forall nodes j x t, tsum (map (term j) nodes) x t = match j with One => s * exp (- q * t) | Two => - (exp x * exp (- r * t)) end * (h_P csqrt cln nodes v t r q rho kappa theta sigma s (exp x) j - / 2).
  Proof.
    intros nodes j x t. unfold h_P, integrate.
    assert (E : forall l, tsum (map (term j) l) x t = match j with One => s * exp (- q * t) | Two => - (exp x * exp (- r * t)) end * (w0 * rsum (map (fun n => snd n * h_re csqrt cln v t r q rho kappa theta sigma s (exp x) j (visited n)) l))).
    { induction l as [|n l IH]; [unfold tsum; simpl; ring|]. change (tsum (map (term j) (n :: l)) x t) with (tv (term j n) x t + tsum (map (term j) l) x t). rewrite IH, term_value. simpl rsum. destruct j; ring. }
    rewrite E. unfold visited, w0. ring.
  Qed.
  Lemma call_terms : forall nodes x t, heston_call csqrt cln nodes v t r q rho kappa theta sigma s (exp x)
    = / 2 * s * exp (- q * t) - / 2 * exp x * exp (- r * t) + tsum (map (term Two) nodes ++ map (term One) nodes) x t.
  Proof. intros. rewrite tsum_app, !P_terms. unfold heston_call. field. Qed.
End Jump.
