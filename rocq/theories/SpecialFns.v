(** Special functions used by several models: the error function and the
    standard normal distribution, as real functions.

    The code calls external implementations ([errorfunctions] crate for [erf]
    and [erfc]); the model replaces them by the mathematical functions below,
    which is recorded in the trusted base. *)
From Coq Require Import Reals Lra Lia.
From Coquelicot Require Import Coquelicot.
Open Scope R_scope.

Definition bell (t : R) : R := exp (- (t ^ 2)).

(** erf(x) = 2/sqrt(pi) * integral of exp(-t^2) from 0 to x *)
Definition erf (x : R) : R := 2 / sqrt PI * RInt bell 0 x.
Definition erfc (x : R) : R := 1 - erf x.

Lemma bell_derive x : is_derive bell x (- 2 * x * exp (- (x ^ 2))).
Proof. unfold bell. auto_derive; [exact I|]. simpl; ring. Qed.

Lemma bell_continuous x : continuous bell x.
Proof. apply (ex_derive_continuous (K:=R_AbsRing) (V:=R_NormedModule)).
  eexists. apply bell_derive. Qed.

Lemma bell_int a b : ex_RInt bell a b.
Proof. apply (ex_RInt_continuous (V:=R_CompleteNormedModule)).
  intros z _. apply bell_continuous. Qed.

Lemma RInt_bell_derive x : is_derive (fun x => RInt bell 0 x) x (bell x).
Proof.
  apply (is_derive_RInt bell (fun x => RInt bell 0 x) 0 x).
  - exists (mkposreal 1 Rlt_0_1). intros y _. apply (RInt_correct (V:=R_CompleteNormedModule)). apply bell_int.
  - apply bell_continuous.
Qed.

Lemma sqrt_PI_pos : 0 < sqrt PI.
Proof. apply sqrt_lt_R0, PI_RGT_0. Qed.

Lemma erf_derive x : is_derive erf x (2 * exp (- (x ^ 2)) / sqrt PI).
Proof.
  unfold erf. evar_last.
  - apply is_derive_scal. apply RInt_bell_derive.
  - unfold bell. pose proof sqrt_PI_pos. field. lra.
Qed.

Lemma erfc_derive x : is_derive erfc x (- (2 * exp (- (x ^ 2))) / sqrt PI).
Proof.
  unfold erfc. evar_last.
  - apply (is_derive_minus (fun _ => 1) erf); [apply is_derive_const|apply erf_derive].
  - unfold minus, plus, opp, zero; simpl. pose proof sqrt_PI_pos. field. lra.
Qed.

Lemma erf_0 : erf 0 = 0.
Proof. unfold erf. rewrite RInt_point. unfold zero; simpl. ring. Qed.

Lemma erf_odd x : erf (- x) = - erf x.
Proof.
  unfold erf.
  assert (RInt bell 0 (- x) = - RInt bell 0 x) as H.
  { pose proof (RInt_comp_lin bell (-1) 0 0 x) as HL.
    replace (-1 * 0 + 0) with 0 in HL by ring. replace (-1 * x + 0) with (- x) in HL by ring.
    rewrite <- (HL (bell_int 0 (- x))).
    transitivity (RInt (fun t => scal (-1) (bell t)) 0 x).
    - apply RInt_ext. intros t _. unfold bell. do 2 f_equal. ring.
    - rewrite (RInt_scal (V:=R_CompleteNormedModule)) by apply bell_int.
      unfold scal; simpl. unfold mult; simpl. ring. }
  rewrite H. ring.
Qed.

(** ** The Gaussian integral *)

(** G(x) = integral over t in [0,1] of exp(-x^2 (1+t^2)) / (1+t^2) *)
Definition gk (x t : R) : R := exp (- (x ^ 2 * (1 + t ^ 2))) / (1 + t ^ 2).
Definition G (x : R) : R := RInt (gk x) 0 1.

Lemma one_sq_pos t : 0 < 1 + t ^ 2.
Proof. pose proof (pow2_ge_0 t). lra. Qed.

Lemma gk_derive x t : is_derive (fun u => gk u t) x (- 2 * x * exp (- (x ^ 2 * (1 + t ^ 2)))).
Proof.
  unfold gk. auto_derive; [exact I|]. pose proof (one_sq_pos t).
  replace (x * (x * 1)) with (x ^ 2) by ring. replace (t * (t * 1)) with (t ^ 2) by ring.
  field. lra.
Qed.

Lemma gk_cont_t x t : continuous (gk x) t.
Proof.
  apply (ex_derive_continuous (K:=R_AbsRing) (V:=R_NormedModule)).
  unfold gk. auto_derive. pose proof (one_sq_pos t).
  replace (t * (t * 1)) with (t ^ 2) by ring. lra.
Qed.

Lemma gk_int x : ex_RInt (gk x) 0 1.
Proof. apply (ex_RInt_continuous (V:=R_CompleteNormedModule)).
  intros z _. apply gk_cont_t. Qed.

Lemma G_derive x :
  is_derive G x (RInt (fun t => - 2 * x * exp (- (x ^ 2 * (1 + t ^ 2)))) 0 1).
Proof.
  unfold G.
  replace (RInt (fun t => - 2 * x * exp (- (x ^ 2 * (1 + t ^ 2)))) 0 1)
    with (RInt (fun t => Derive (fun u => gk u t) x) 0 1).
  2:{ apply RInt_ext. intros t _. apply is_derive_unique, gk_derive. }
  apply (is_derive_RInt_param gk 0 1 x).
  - apply filter_forall. intros y t _. eexists. apply gk_derive.
  - intros t _.
    apply (continuity_2d_pt_ext (fun u v => (- 2 * u) * exp (- (u ^ 2 * (1 + v ^ 2))))).
    { intros u v. symmetry. apply is_derive_unique, gk_derive. }
    apply continuity_2d_pt_mult.
    + apply continuity_2d_pt_mult; [apply continuity_2d_pt_const|apply continuity_2d_pt_id1].
    + apply (continuity_1d_2d_pt_comp exp (fun u v => - (u ^ 2 * (1 + v ^ 2)))).
      * apply derivable_continuous_pt, derivable_pt_exp.
      * apply continuity_2d_pt_opp, continuity_2d_pt_mult.
        { apply (continuity_1d_2d_pt_comp (fun z => z ^ 2) (fun u v => u)).
          - apply derivable_continuous_pt, derivable_pt_pow.
          - apply continuity_2d_pt_id1. }
        { apply continuity_2d_pt_plus; [apply continuity_2d_pt_const|].
          apply (continuity_1d_2d_pt_comp (fun z => z ^ 2) (fun u v => v)).
          - apply derivable_continuous_pt, derivable_pt_pow.
          - apply continuity_2d_pt_id2. }
  - apply filter_forall. intros y. apply gk_int.
Qed.

(** substitution s = x t *)
Lemma bell_subst x : RInt (fun t => x * bell (x * t)) 0 1 = RInt bell 0 x.
Proof.
  pose proof (RInt_comp_lin bell x 0 0 1) as H.
  replace (x * 0 + 0) with 0 in H by ring. replace (x * 1 + 0) with x in H by ring.
  rewrite <- (H (bell_int 0 x)). apply RInt_ext. intros t _. unfold scal; simpl. unfold mult; simpl.
  now rewrite Rplus_0_r.
Qed.

Definition F2 (x : R) : R := (RInt bell 0 x) ^ 2.

Lemma FG_derive x : is_derive (fun x => F2 x + G x) x 0.
Proof.
  evar_last.
  - apply (is_derive_plus F2 G).
    + unfold F2. apply (is_derive_pow _ 2). apply RInt_bell_derive.
    + apply G_derive.
  - assert (RInt (fun t => - 2 * x * exp (- (x ^ 2 * (1 + t ^ 2)))) 0 1
            = - 2 * bell x * RInt bell 0 x) as ->.
    { rewrite <- bell_subst.
      rewrite <- (RInt_scal (V:=R_CompleteNormedModule)).
      - apply RInt_ext. intros t _. unfold scal, bell; simpl. unfold mult; simpl.
        replace (- (x * (x * 1) * (1 + t * (t * 1))))
          with (- (x * (x * 1)) + - (x * t * (x * t * 1))) by ring.
        rewrite exp_plus. ring.
      - apply (ex_RInt_continuous (V:=R_CompleteNormedModule)). intros z _.
        apply (ex_derive_continuous (K:=R_AbsRing) (V:=R_NormedModule)).
        unfold bell. auto_derive. exact I. }
    unfold plus; simpl. ring.
Qed.

Lemma FG_const x : F2 x + G x = PI / 4.
Proof.
  transitivity (F2 0 + G 0).
  - destruct (Req_dec x 0) as [->|Hx]; [reflexivity|].
    destruct (MVT_gen (fun x => F2 x + G x) 0 x (fun _ => 0)) as (c & _ & Hc).
    + intros y _. apply FG_derive.
    + intros y _. apply continuity_pt_filterlim.
      apply (ex_derive_continuous (K:=R_AbsRing) (V:=R_NormedModule) (fun x => F2 x + G x)).
      eexists. apply FG_derive.
    + lra.
  - unfold F2. rewrite RInt_point. unfold zero; simpl.
    assert (G 0 = atan 1 - atan 0) as ->.
    { unfold G. apply is_RInt_unique.
      apply (is_RInt_ext (fun t => / (1 + t ^ 2))).
      { intros t _. unfold gk. replace (- (0 ^ 2 * (1 + t ^ 2))) with 0 by ring.
        rewrite exp_0. unfold Rdiv. now rewrite Rmult_1_l. }
      apply (is_RInt_derive (V:=R_CompleteNormedModule) atan (fun t => / (1 + t ^ 2))).
      - intros t _. apply is_derive_Reals.
        apply derivable_pt_lim_atan.
      - intros t _. apply (ex_derive_continuous (K:=R_AbsRing) (V:=R_NormedModule)).
        auto_derive. pose proof (one_sq_pos t). simpl in *. lra. }
    rewrite atan_0, atan_1. lra.
Qed.

Lemma G_bounds x : 0 < G x <= exp (- (x ^ 2)).
Proof.
  split.
  - unfold G. apply RInt_gt_0; [lra| |].
    + intros t _. unfold gk. apply Rdiv_lt_0_compat; [apply exp_pos|apply one_sq_pos].
    + intros t _. apply gk_cont_t.
  - unfold G. 
    replace (exp (- x ^ 2)) with (RInt (fun _ => exp (- x ^ 2)) 0 1).
    2:{ rewrite RInt_const. unfold scal; simpl. unfold mult; simpl. ring. }
    apply RInt_le; [lra|apply gk_int|apply ex_RInt_const|].
    intros t Ht. unfold gk.
    apply Rle_trans with (exp (- (x ^ 2 * (1 + t ^ 2))) / 1).
    + unfold Rdiv. apply Rmult_le_compat_l; [left; apply exp_pos|].
      apply Rinv_le_contravar; [lra|]. pose proof (pow2_ge_0 t). lra.
    + unfold Rdiv. rewrite Rinv_1, Rmult_1_r.
      assert (- (x ^ 2 * (1 + t ^ 2)) <= - x ^ 2) as H.
      { pose proof (pow2_ge_0 x). pose proof (pow2_ge_0 t).
        pose proof (Rmult_le_pos _ _ H H0). lra. }
      destruct H as [H|H]; [left; now apply exp_increasing|rewrite H; lra].
Qed.

Lemma erf_sq x : (erf x) ^ 2 = 1 - 4 / PI * G x.
Proof.
  pose proof (FG_const x) as H. unfold F2 in H. unfold erf.
  replace ((2 / sqrt PI * RInt bell 0 x) ^ 2) with (4 / (sqrt PI * sqrt PI) * (RInt bell 0 x) ^ 2).
  - rewrite sqrt_sqrt by (left; apply PI_RGT_0). pose proof PI_RGT_0.
    replace (RInt bell 0 x ^ 2) with (PI / 4 - G x) by lra. field. lra.
  - pose proof sqrt_PI_pos. field. lra.
Qed.

Lemma erf_bound x : -1 < erf x < 1.
Proof.
  pose proof (erf_sq x) as H. pose proof (G_bounds x) as [H1 _].
  assert ((erf x) ^ 2 < 1) as H2.
  { rewrite H. pose proof PI_RGT_0.
    assert (0 < 4 / PI * G x) by (apply Rmult_lt_0_compat; [apply Rdiv_lt_0_compat; lra|lra]).
    lra. }
  nra.
Qed.

Lemma erf_increasing x y : x < y -> erf x < erf y.
Proof.
  intros H. unfold erf.
  apply Rmult_lt_compat_l.
  { pose proof sqrt_PI_pos. apply Rdiv_lt_0_compat; lra. }
  assert (RInt bell 0 y = RInt bell 0 x + RInt bell x y) as ->.
  { symmetry. apply (RInt_Chasles bell 0 x y); apply bell_int. }
  assert (0 < RInt bell x y); [|lra].
  apply RInt_gt_0; [lra| |].
  - intros t _. apply exp_pos.
  - intros t _. apply bell_continuous.
Qed.

(** erf tends to 1 *)
Lemma erf_near_one x : 0 < x -> 1 - erf x <= 4 / PI * exp (- (x ^ 2)).
Proof.
  intros Hx. pose proof (erf_sq x) as H. pose proof (G_bounds x) as [H1 H2].
  pose proof (erf_bound x) as [_ Hb].
  assert (0 < erf x) as Hp by (rewrite <- erf_0; now apply erf_increasing).
  assert (4 / PI * G x <= 4 / PI * exp (- (x ^ 2))) as H3.
  { apply Rmult_le_compat_l; [|lra]. pose proof PI_RGT_0. left. apply Rdiv_lt_0_compat; lra. }
  nra.
Qed.

Lemma exp_sq_small eps : 0 < eps -> exists M, 0 < M /\ forall x, M < x -> exp (- (x ^ 2)) < eps.
Proof.
  intros He. exists (Rmax 1 (/ eps)). split; [apply Rlt_le_trans with 1; [lra|apply Rmax_l]|].
  intros x Hx.
  assert (1 < x) as H1 by (eapply Rle_lt_trans; [apply Rmax_l|exact Hx]).
  assert (/ eps < x) as H2 by (eapply Rle_lt_trans; [apply Rmax_r|exact Hx]).
  rewrite exp_Ropp. rewrite <- (Rinv_inv eps).
  apply Rinv_lt_contravar.
  - apply Rmult_lt_0_compat; [now apply Rinv_0_lt_compat|apply exp_pos].
  - apply Rlt_le_trans with (x ^ 2); [nra|]. left.
    apply Rlt_trans with (1 + x ^ 2); [lra|]. apply exp_ineq1. nra.
Qed.

Lemma erf_lim_p : is_lim erf p_infty 1.
Proof.
  apply is_lim_spec. intros eps. 
  destruct (exp_sq_small (PI / 4 * eps)) as (M & HM & HS).
  { pose proof PI_RGT_0. destruct eps as [e He]; simpl. apply Rmult_lt_0_compat; lra. }
  exists M. intros x Hx. pose proof (erf_bound x) as [_ Hb].
  rewrite Rabs_left by lra. pose proof (erf_near_one x ltac:(lra)) as Hn.
  specialize (HS x Hx). pose proof PI_RGT_0.
  assert (4 / PI * exp (- x ^ 2) < 4 / PI * (PI / 4 * eps)) as HH.
  { apply Rmult_lt_compat_l; [apply Rdiv_lt_0_compat; lra|exact HS]. }
  replace (4 / PI * (PI / 4 * eps)) with (pos eps) in HH by (field; lra). lra.
Qed.

Lemma erf_lim_m : is_lim erf m_infty (-1).
Proof.
  apply is_lim_spec. intros eps.
  destruct (proj2 (is_lim_spec erf p_infty 1) erf_lim_p eps) as [M HM].
  exists (- M). intros x Hx. specialize (HM (- x) ltac:(lra)).
  rewrite erf_odd in HM. replace (erf x - -1) with (- (- erf x - 1)) by ring.
  now rewrite Rabs_Ropp.
Qed.

(** ** Standard normal distribution *)

(** density and distribution function of N(0,1), in the form the code computes
    them (gaussian.rs 102-109 and 137-142 at mean 0, variance 1) *)
Definition npdf (x : R) : R := / sqrt (2 * PI) * exp (- / 2 * x ^ 2).
Definition ncdf (x : R) : R := / 2 * erfc (- x / sqrt 2).

Lemma sqrt2_pos : 0 < sqrt 2. Proof. apply sqrt_lt_R0; lra. Qed.
Lemma sqrt_2PI_pos : 0 < sqrt (2 * PI).
Proof. apply sqrt_lt_R0. pose proof PI_RGT_0. lra. Qed.
Lemma sqrt_2PI : sqrt (2 * PI) = sqrt 2 * sqrt PI.
Proof. apply sqrt_mult; [lra|left; apply PI_RGT_0]. Qed.

Lemma npdf_pos x : 0 < npdf x.
Proof.
  unfold npdf. apply Rmult_lt_0_compat; [apply Rinv_0_lt_compat, sqrt_2PI_pos|apply exp_pos].
Qed.

Lemma npdf_even x : npdf (- x) = npdf x.
Proof. unfold npdf. do 2 f_equal. ring. Qed.

Lemma ncdf_derive x : is_derive ncdf x (npdf x).
Proof.
  unfold ncdf. pose proof sqrt2_pos as H2. pose proof sqrt_PI_pos as HP.
  assert (sqrt 2 * sqrt 2 = 2) as H22 by (apply sqrt_sqrt; lra).
  evar_last.
  - apply is_derive_scal. apply (is_derive_comp erfc (fun x => - x / sqrt 2)).
    + apply erfc_derive.
    + auto_derive; [exact I|reflexivity].
  - unfold npdf. rewrite sqrt_2PI. unfold scal; simpl; unfold mult; simpl.
    replace (- (- x / sqrt 2 * (- x / sqrt 2 * 1))) with (- / 2 * (x * (x * 1))).
    + field. lra.
    + replace (- x / sqrt 2 * (- x / sqrt 2 * 1)) with (x * x / (sqrt 2 * sqrt 2)) by (field; lra).
      rewrite H22. field.
Qed.

Lemma npdf_derive x : is_derive npdf x (- x * npdf x).
Proof.
  unfold npdf. auto_derive; [exact I|].
  replace (x * (x * 1)) with (x ^ 2) by ring. field. apply Rgt_not_eq, sqrt_2PI_pos.
Qed.

Lemma ncdf_bound x : 0 < ncdf x < 1.
Proof. unfold ncdf, erfc. pose proof (erf_bound (- x / sqrt 2)). lra. Qed.

Lemma ncdf_sym x : ncdf (- x) = 1 - ncdf x.
Proof.
  unfold ncdf, erfc. replace (- - x / sqrt 2) with (- (- x / sqrt 2)).
  - rewrite erf_odd. lra.
  - pose proof sqrt2_pos. field. lra.
Qed.

Lemma ncdf_0 : ncdf 0 = / 2.
Proof.
  unfold ncdf, erfc. replace (- 0 / sqrt 2) with 0.
  - rewrite erf_0. lra.
  - pose proof sqrt2_pos. field. lra.
Qed.

Lemma ncdf_increasing x y : x < y -> ncdf x < ncdf y.
Proof.
  intros H. unfold ncdf, erfc. pose proof sqrt2_pos as H2.
  assert (erf (- y / sqrt 2) < erf (- x / sqrt 2)); [|lra].
  apply erf_increasing. unfold Rdiv. apply Rmult_lt_compat_r; [now apply Rinv_0_lt_compat|lra].
Qed.

Lemma ncdf_le x y : x <= y -> ncdf x <= ncdf y.
Proof. intros [H| ->]; [left; now apply ncdf_increasing|right; reflexivity]. Qed.
