(** C51, fifth part: gamma and chi-squared distributions. *)
From Coq Require Import Reals ZArith PeanoNat Bool Lra Lia.
From Coquelicot Require Import Coquelicot.
From Verif Require Import Res InterpModel InterpProofs MatLib StatModel SpecialFns RGen DistModel DistDisc DistPois DistCont DistGauss.
Open Scope R_scope.

(** ** The external gamma functions, specified by their defining integrals *)
Definition gk (a t : R) : R := Rpower t (a - 1) * exp (- t).
Definition gamma_fn_spec (gamma : R -> R) (gamma_li : R -> R -> R) : Prop :=
  (forall a, 0 < a -> is_RInt_gen (gk a) (at_right 0) (Rbar_locally p_infty) (gamma a)) /\
  (forall a x, 0 < a -> 0 < x -> is_RInt_gen (gk a) (at_right 0) (at_point x) (gamma_li a x)) /\
  (forall a, gamma_li a 0 = 0).

Lemma gk_pos a t : 0 < gk a t. Proof. apply Rmult_lt_0_compat; apply exp_pos. Qed.
Lemma gk_derivable a t : 0 < t -> is_derive (gk a) t ((a - 1) * Rpower t (a - 2) * exp (- t) - gk a t).
Proof.
  intros Ht. unfold gk. replace (Rpower t (a - 2)) with (Rpower t (a - 1) * / t).
  2:{ unfold Rpower. rewrite <- (exp_ln t) at 2 by exact Ht. rewrite <- exp_Ropp, <- exp_plus. f_equal. ring. }
  unfold Rpower. auto_derive; [exact Ht|].
  match goal with |- ?u = ?v => change (@eq R u v) end. field. lra.
Qed.
Lemma gk_cont a t : 0 < t -> continuous (gk a) t.
Proof. intros Ht. apply (ex_derive_continuous (K:=R_AbsRing) (V:=R_NormedModule)). eexists. apply gk_derivable, Ht. Qed.
Lemma gk_ex a x y : 0 < x -> 0 < y -> ex_RInt (gk a) x y.
Proof. intros Hx Hy. apply (ex_RInt_continuous (V:=R_CompleteNormedModule)). intros z [Hz _]. apply gk_cont. unfold Rmin in Hz. destruct (Rle_dec x y); lra. Qed.
Lemma gk_int_pos a x y : 0 < x < y -> 0 < RInt (gk a) x y.
Proof. intros H. apply RInt_gt_0; [lra|intros; apply gk_pos|]. intros z Hz. apply gk_cont. lra. Qed.

Lemma rpow_shift t a n : 0 < t -> t ^ n * Rpower t (a - 1) = Rpower t (a + INR n - 1).
Proof. intros Ht. rewrite <- Rpower_pow by exact Ht. rewrite <- Rpower_plus. f_equal. ring. Qed.
(** limits of t^a exp(-t) at both ends *)
Lemma rpow_0 a : 0 < a -> filterlim (fun t => Rpower t a) (at_right 0) (locally 0).
Proof.
  intros Ha P [e He]. unfold filtermap, at_right, within. set (d := Rpower e (/ a)). assert (D : 0 < d) by apply exp_pos.
  exists (mkposreal d D). intros t Ht Pt. apply He. change (Rabs (Rpower t a - 0) < e). rewrite Rminus_0_r, Rabs_right by (left; apply exp_pos).
  assert (B : Rabs (t - 0) < d) by exact Ht. rewrite Rminus_0_r, Rabs_right in B by lra.
  replace (pos e) with (Rpower d a). - apply Rlt_Rpower_l; lra. - unfold d. rewrite Rpower_mult. replace (/ a * a) with 1 by (field; lra). apply Rpower_1, cond_pos.
Qed.
Lemma rpow_exp_0 a : 0 < a -> filterlim (fun t => Rpower t a * exp (- t)) (at_right 0) (locally 0).
Proof.
  intros Ha P [e He]. pose proof (rpow_0 a Ha (fun v => Rabs (v - 0) < e)) as Q. unfold filtermap in *.
  assert (PQ : at_right 0 (fun t => 0 < t)) by (exists (mkposreal 1 Rlt_0_1); intros; assumption).
  generalize (filter_and _ _ (Q (ex_intro _ e (fun y Hy => Hy))) PQ). apply filter_imp. intros t [Ht Pt]. apply He. change (Rabs (Rpower t a * exp (- t) - 0) < e).
  rewrite Rminus_0_r in *. eapply Rle_lt_trans; [|exact Ht]. rewrite Rabs_mult. rewrite <- (Rmult_1_r (Rabs (Rpower t a))) at 2. apply Rmult_le_compat_l; [apply Rabs_pos|].
  rewrite Rabs_right by (left; apply exp_pos). rewrite <- exp_0. left. apply exp_increasing. lra.
Qed.
Lemma rpow_le_pow t a : 1 <= t -> exists n, a <= INR n /\ Rpower t a <= t ^ n.
Proof.
  intros Ht. destruct (Rle_dec 0 a) as [Ha|Ha].
  - destruct (floor_nat a Ha) as (m & _ & _ & M). exists (S m). rewrite S_INR. split; [lra|]. rewrite <- Rpower_pow by lra.
    destruct (Req_dec t 1) as [->|]; [|apply Rle_Rpower; [lra|rewrite S_INR; lra]]. unfold Rpower. rewrite ln_1, !Rmult_0_r. lra.
  - exists 0%nat. simpl. split; [lra|]. unfold Rpower. apply Rle_trans with (exp 0); [|rewrite exp_0; lra]. assert (0 <= ln t). { rewrite <- ln_1. destruct (Req_dec t 1) as [->|]; [lra|]. left. apply ln_increasing; lra. }
    assert (Q : a * ln t <= 0) by nra. destruct Q as [Q|Q]; [left; apply exp_increasing, Q|rewrite Q; lra].
Qed.
Lemma rpow_le_pow_uniform a : exists n, forall t, 1 <= t -> Rpower t a <= t ^ n.
Proof.
  destruct (Rle_dec 0 a) as [Ha|Ha].
  - destruct (floor_nat a Ha) as (m & _ & _ & M). exists (S m). intros t Ht. rewrite <- Rpower_pow by lra.
    destruct (Req_dec t 1) as [->|]; [|apply Rle_Rpower; [lra|rewrite S_INR; lra]]. unfold Rpower. rewrite ln_1, !Rmult_0_r. lra.
  - exists 0%nat. intros t Ht. destruct (rpow_le_pow t 0 Ht) as (n & _). simpl. apply Rle_trans with (Rpower t 0); [|rewrite Rpower_O by lra; lra].
    unfold Rpower. rewrite Rmult_0_l. assert (0 <= ln t). { rewrite <- ln_1. destruct (Req_dec t 1) as [->|]; [lra|]. left. apply ln_increasing; lra. }
    assert (Q : a * ln t <= 0) by nra. destruct Q as [Q|Q]; [left; apply exp_increasing, Q|rewrite Q; lra].
Qed.
Lemma rpow_exp_inf a : is_lim (fun t => Rpower t a * exp (- t)) p_infty 0.
Proof.
  destruct (rpow_le_pow_uniform a) as [n Hn]. set (K := INR (fact n) * (INR (S n) * INR (S n))).
  apply (is_lim_le_le_loc (fun _ => 0) (fun t => K * / t)).
  - exists 1. intros t Ht. split; [left; apply Rmult_lt_0_compat; apply exp_pos|]. eapply Rle_trans; [|apply (pow_exp_small n t); lra]. apply Rmult_le_compat_r; [left; apply exp_pos|apply Hn; lra].
  - apply is_lim_const.
  - replace (Finite 0) with (Rbar_mult K (Rbar_inv p_infty)) by (simpl; f_equal; ring). apply is_lim_scal_l, is_lim_inv; [apply is_lim_id|discriminate].
Qed.

Lemma near l h : 0 < h -> locally l (fun v : R => Rabs (v - l) < h).
Proof. intros Hh. exists (mkposreal h Hh). intros y Hy. exact Hy. Qed.
Section Spec.
Variables (gamma : R -> R) (gamma_li : R -> R -> R).
Hypothesis SP : gamma_fn_spec gamma gamma_li.
Let SPg := proj1 SP.
Let SPl := proj1 (proj2 SP).

Lemma li_step a x y : 0 < a -> 0 < x -> 0 < y -> gamma_li a y = gamma_li a x + RInt (gk a) x y.
Proof.
  intros Ha Hx Hy. apply (igen_unique (at_right 0) (at_point y) (gk a)); [apply SPl; assumption|].
  apply (is_RInt_gen_Chasles (V:=R_NormedModule) (gk a) x); [apply SPl; assumption|]. apply is_RInt_gen_at_point. exact (RInt_correct (V:=R_CompleteNormedModule) (gk a) x y (gk_ex a x y Hx Hy)).
Qed.
Lemma li_inc a x y : 0 < a -> 0 < x < y -> gamma_li a x < gamma_li a y.
Proof. intros Ha H. rewrite (li_step a x y) by lra. pose proof (gk_int_pos a x y H). lra. Qed.
Lemma li_derive a x : 0 < a -> 0 < x -> is_derive (gamma_li a) x (gk a x).
Proof.
  intros Ha Hx. apply (is_derive_ext_loc (fun y => gamma_li a x + RInt (gk a) x y)).
  - exists (mkposreal x Hx). intros y Hy. symmetry. apply li_step; try assumption. change (Rabs (y - x) < x) in Hy. apply Rabs_lt_between in Hy. lra.
  - rewrite <- (Rplus_0_l (gk a x)). apply (is_derive_plus (V:=R_NormedModule) (fun _ => gamma_li a x)); [apply (is_derive_const (V:=R_NormedModule))|].
    apply (is_derive_RInt (V:=R_CompleteNormedModule) (gk a) (fun y => RInt (gk a) x y) x x); [|apply gk_cont, Hx].
    exists (mkposreal x Hx). intros y Hy. change (Rabs (y - x) < x) in Hy. apply Rabs_lt_between in Hy. exact (RInt_correct (V:=R_CompleteNormedModule) (gk a) x y (gk_ex a x y Hx ltac:(lra))).
Qed.
Lemma li_lim_0 a : 0 < a -> filterlim (gamma_li a) (at_right 0) (locally 0).
Proof.
  intros Ha P [e He]. pose proof (SPl a 1 Ha Rlt_0_1) as H. specialize (H (fun v => Rabs (v - gamma_li a 1) < e)). unfold filtermapi in H.
  destruct H as [Q R HQ HR H]; [exists e; intros y Hy; exact Hy|]. unfold filtermap. assert (PQ : at_right 0 (fun t => 0 < t)) by (exists (mkposreal 1 Rlt_0_1); intros; assumption).
  generalize (filter_and _ _ HQ PQ). apply filter_imp. intros t [Qt Pt]. apply He. change (Rabs (gamma_li a t - 0) < e).
  destruct (H t 1 Qt HR) as [v [I V]]. cbn [fst snd] in I. apply (is_RInt_unique (V:=R_CompleteNormedModule)) in I. rewrite (li_step a t 1) in V by lra. rewrite I in V.
  replace (gamma_li a t - 0) with (- (v - (gamma_li a t + v))) by ring. rewrite Rabs_Ropp. exact V.
Qed.
Lemma li_lim_inf a : 0 < a -> is_lim (gamma_li a) p_infty (gamma a).
Proof.
  intros Ha P [e He]. set (h := e / 2). assert (Hh : 0 < h) by (unfold h; pose proof (cond_pos e); lra).
  pose proof (SPg a Ha) as H. specialize (H (fun v => Rabs (v - gamma a) < h)). unfold filtermapi in H.
  destruct H as [Q R HQ HR H]; [exists (mkposreal h Hh); intros y Hy; exact Hy|].
  assert (PQ : at_right 0 (fun t => 0 < t)) by (exists (mkposreal 1 Rlt_0_1); intros; assumption).
  assert (L0 : at_right 0 (fun t => Rabs (gamma_li a t - 0) < h)) by (apply (li_lim_0 a Ha (fun v => Rabs (v - 0) < h)); exists (mkposreal h Hh); intros y Hy; exact Hy).
  destruct (filter_ex (F:=at_right 0) _ (filter_and _ _ HQ (filter_and _ _ PQ L0))) as [t (Qt & Pt & Lt)].
  assert (PI' : Rbar_locally p_infty (fun b => 0 < b)) by (exists 0; intros; assumption).
  unfold filtermap. generalize (filter_and _ _ HR PI'). apply filter_imp. intros b [Rb Pb]. apply He. change (Rabs (gamma_li a b - gamma a) < e).
  destruct (H t b Qt Rb) as [v [I V]]. cbn [fst snd] in I. apply (is_RInt_unique (V:=R_CompleteNormedModule)) in I. rewrite (li_step a t b) by assumption. rewrite I.
  replace (gamma_li a t + v - gamma a) with ((gamma_li a t - 0) + (v - gamma a)) by ring. eapply Rle_lt_trans; [apply Rabs_triang|]. unfold h in *. lra.
Qed.
Lemma li_pos a x : 0 < a -> 0 < x -> 0 < gamma_li a x.
Proof.
  intros Ha Hx. assert (G : forall y, 0 < y -> 0 <= gamma_li a y).
  { intros y Hy. destruct (Rle_dec 0 (gamma_li a y)) as [|N]; [assumption|exfalso]. set (h := - gamma_li a y). assert (Hh : 0 < h) by (unfold h; lra).
    pose proof (li_lim_0 a Ha (fun v => Rabs (v - 0) < h) (near _ h Hh)) as L. unfold filtermap in L.
    assert (PQ : at_right 0 (fun t => 0 < t < y)). { exists (mkposreal y Hy). intros t Ht Pt. change (Rabs (t - 0) < y) in Ht. rewrite Rminus_0_r, Rabs_right in Ht by lra. lra. }
    destruct (filter_ex (F:=at_right 0) _ (filter_and _ _ L PQ)) as [t (Lt & Pt)]. pose proof (li_inc a t y Ha Pt). apply Rabs_lt_between in Lt. unfold h in Lt. lra. }
  pose proof (G (x / 2) ltac:(lra)). pose proof (li_inc a (x / 2) x Ha ltac:(lra)). lra.
Qed.
Lemma li_lt_gamma a x : 0 < a -> 0 < x -> gamma_li a x < gamma a.
Proof.
  intros Ha Hx. assert (G : forall y, 0 < y -> gamma_li a y <= gamma a).
  { intros y Hy. destruct (Rle_dec (gamma_li a y) (gamma a)) as [|N]; [assumption|exfalso]. set (h := gamma_li a y - gamma a). assert (Hh : 0 < h) by (unfold h; lra).
    pose proof (li_lim_inf a Ha (fun v => Rabs (v - gamma a) < h) (near _ h Hh)) as [M HM]. specialize (HM (Rmax M y + 1)).
    pose proof (Rmax_l M y). pose proof (Rmax_r M y). specialize (HM ltac:(lra)). pose proof (li_inc a y (Rmax M y + 1) Ha ltac:(lra)). apply Rabs_lt_between in HM. unfold h in HM. lra. }
  pose proof (G (x + 1) ltac:(lra)). pose proof (li_inc a x (x + 1) Ha ltac:(lra)). lra.
Qed.
Lemma gamma_pos a : 0 < a -> 0 < gamma a.
Proof. intros Ha. pose proof (li_pos a 1 Ha Rlt_0_1). pose proof (li_lt_gamma a 1 Ha Rlt_0_1). lra. Qed.

(** Gamma(a+1) = a Gamma(a) *)
Lemma gamma_rec a : 0 < a -> gamma (a + 1) = a * gamma a.
Proof.
  intros Ha. assert (Z : is_RInt_gen (fun t => a * gk a t + (-1) * gk (a + 1) t) (at_right 0) (Rbar_locally p_infty) (0 - 0)).
  { refine (igen_pos (fun t => Rpower t a * exp (- t)) _ 0 0 _ _ _ (rpow_exp_inf a)).
    - intros t Ht. unfold gk. replace (a + 1 - 1) with a by ring. unfold Rpower. auto_derive; [exact Ht|]. replace (exp ((a - 1) * ln t)) with (exp (a * ln t) * / t) by (rewrite <- (exp_ln t) at 2 by exact Ht; rewrite <- exp_Ropp, <- exp_plus; f_equal; ring).
      match goal with |- ?u = ?v => change (@eq R u v) end. field. lra.
    - intros t Ht. apply (continuous_plus (V:=R_NormedModule)); apply (continuous_scal_r (V:=R_NormedModule)); apply gk_cont, Ht.
    - apply rpow_exp_0, Ha. }
  pose proof (igen_lin (at_right 0) (Rbar_locally p_infty) (gk a) (gk (a + 1)) a (-1) _ _ (SPg a Ha) (SPg (a + 1) ltac:(lra))) as L.
  pose proof (igen_unique (at_right 0) (Rbar_locally p_infty) _ _ _ Z L). lra.
Qed.
End Spec.

(** ** Gamma distribution *)
(** the expectation of f exists and is v *)
Definition gam_E (gamma : R -> R) (a b : R) (f : R -> R) (v : R) : Prop :=
  is_RInt_gen (fun x => rval (gamma_pdf gamma a b x) * f x) (at_right 0) (Rbar_locally p_infty) v.
Lemma gam_pdf gamma a b x : 0 < b -> 0 < x -> gamma_pdf gamma a b x = Ret (/ gamma a * (b * gk a (b * x + 0))).
Proof.
  intros Hb Hx. unfold gamma_pdf. destruct (Rltb_spec 0 x); [|lra]. f_equal. unfold gk. rewrite Rplus_0_r, <- Rpower_mult_distr by assumption.
  replace (- (b * x)) with (- b * x) by ring. replace (Rpower b a) with (b * Rpower b (a - 1)).
  - unfold Rdiv. ring.
  - rewrite <- (Rpower_1 b) at 1 by exact Hb. rewrite <- Rpower_plus. f_equal. ring.
Qed.
Lemma scale_0 b : 0 < b -> filterlim (fun y => b * y + 0) (at_right 0) (at_right 0).
Proof.
  intros Hb P [e He]. assert (D : 0 < e / b) by (apply Rdiv_lt_0_compat; [apply cond_pos|exact Hb]). exists (mkposreal _ D). intros y Hy Py.
  change (Rabs (y - 0) < e / b) in Hy. rewrite Rminus_0_r, Rabs_right in Hy by lra. apply He; [|nra]. change (Rabs (b * y + 0 - 0) < e). rewrite Rabs_right by nra.
  apply (Rmult_lt_compat_r b) in Hy; [|exact Hb]. unfold Rdiv in Hy. rewrite Rmult_assoc, Rinv_l, Rmult_1_r in Hy by lra. lra.
Qed.
Lemma gam_lin gamma a b f g c d u v : gam_E gamma a b f u -> gam_E gamma a b g v -> gam_E gamma a b (fun x => c * f x + d * g x) (c * u + d * v).
Proof. intros A B. refine (igen_ext _ _ _ _ _ _ (igen_lin _ _ _ _ c d _ _ A B)). intros x. cbv beta. ring. Qed.
Lemma gam_ext gamma a b f g v : (forall x, 0 < x -> f x = g x) -> gam_E gamma a b f v -> gam_E gamma a b g v.
Proof. intros H. refine (igen_ext_pos _ _ v _). intros x Hx. cbv beta. rewrite H by exact Hx. reflexivity. Qed.
Lemma gam_raw gamma gamma_li a b n : gamma_fn_spec gamma gamma_li -> 0 < a -> 0 < b -> gam_E gamma a b (fun x => x ^ n) (gamma (a + INR n) / (b ^ n * gamma a)).
Proof.
  intros SP Ha Hb. pose proof (gamma_pos gamma gamma_li SP a Ha) as GP. pose proof (pos_INR n) as NP.
  pose proof (igen_affine _ _ (at_right 0) (Rbar_locally p_infty) (gk (a + INR n)) b 0 _ (scale_0 b Hb) (aff_p b 0 Hb) (proj1 SP (a + INR n) ltac:(lra))) as H.
  apply (igen_scal (at_right 0) (Rbar_locally p_infty) _ (/ (b ^ n * gamma a))) in H. assert (BN : b ^ n <> 0) by (apply pow_nonzero; lra).
  replace (gamma (a + INR n) / (b ^ n * gamma a)) with (/ (b ^ n * gamma a) * gamma (a + INR n)) by (unfold Rdiv; ring).
  refine (igen_ext_pos _ _ _ _ H). intros x Hx. cbv beta. rewrite gam_pdf by assumption. cbn [rval]. unfold gk. rewrite Rplus_0_r, <- rpow_shift by nra. rewrite Rpow_mult_distr. field. split; [lra|exact BN].
Qed.

(** Mass, mean, variance, skewness, kurtosis and mgf of the gamma distribution are
    those of its density. *)
Theorem gamma_moments : forall gamma gamma_li a b, gamma_fn_spec gamma gamma_li -> gamma_new a b = Ret (a, b) ->
  let m := gamma_mean a b in
  gam_E gamma a b (fun _ => 1) 1 /\ gam_E gamma a b (fun x => x) m /\ gam_E gamma a b (fun x => (x - m) ^ 2) (gamma_variance a b) /\
  gam_E gamma a b (fun x => (x - m) ^ 3) (gamma_skewness a b * sqrt (gamma_variance a b) ^ 3) /\
  gam_E gamma a b (fun x => (x - m) ^ 4) ((gamma_kurtosis a b + 3) * gamma_variance a b ^ 2) /\
  (forall t, t < b -> exists M, gamma_mgf a b t = Ret M /\ gam_E gamma a b (fun x => exp (t * x)) M).
Proof.
  intros gamma gamma_li a b SP H. unfold gamma_new in H. destruct (Rltb_spec 0 a) as [Ha|]; [|discriminate]. destruct (Rltb_spec 0 b) as [Hb|]; [|discriminate]. clear H. cbv zeta.
  pose proof (gamma_pos gamma gamma_li SP a Ha) as GP. pose proof (fun n => gam_raw gamma gamma_li a b n SP Ha Hb) as R.
  pose proof (gamma_rec gamma gamma_li SP) as REC.
  assert (G1 : gamma (a + 1) = a * gamma a) by (apply REC; lra).
  assert (G2 : gamma (a + 2) = (a + 1) * (a * gamma a)) by (rewrite <- G1, <- REC by lra; f_equal; ring).
  assert (G3 : gamma (a + 3) = (a + 2) * ((a + 1) * (a * gamma a))) by (rewrite <- G2, <- REC by lra; f_equal; ring).
  assert (G4 : gamma (a + 4) = (a + 3) * ((a + 2) * ((a + 1) * (a * gamma a)))) by (rewrite <- G3, <- REC by lra; f_equal; ring).
  pose proof (R 0%nat) as R0. pose proof (R 1%nat) as R1. pose proof (R 2%nat) as R2. pose proof (R 3%nat) as R3. pose proof (R 4%nat) as R4.
  replace (a + INR 0) with a in R0 by (simpl; ring). replace (a + INR 1) with (a + 1) in R1 by (simpl; ring). replace (a + INR 2) with (a + 2) in R2 by (simpl; ring). replace (a + INR 3) with (a + 3) in R3 by (simpl; ring). replace (a + INR 4) with (a + 4) in R4 by (simpl; ring).
  rewrite G1 in R1. rewrite G2 in R2. rewrite G3 in R3. rewrite G4 in R4. clear R G1 G2 G3 G4.
  replace (gamma a / (b ^ 0 * gamma a)) with 1 in R0 by (simpl; field; lra). replace (a * gamma a / (b ^ 1 * gamma a)) with (a / b) in R1 by (field; lra).
  replace ((a + 1) * (a * gamma a) / (b ^ 2 * gamma a)) with ((a + 1) * a / b ^ 2) in R2 by (field; lra).
  replace ((a + 2) * ((a + 1) * (a * gamma a)) / (b ^ 3 * gamma a)) with ((a + 2) * (a + 1) * a / b ^ 3) in R3 by (field; lra).
  replace ((a + 3) * ((a + 2) * ((a + 1) * (a * gamma a))) / (b ^ 4 * gamma a)) with ((a + 3) * (a + 2) * (a + 1) * a / b ^ 4) in R4 by (field; lra).
  unfold gamma_mean, gamma_variance, gamma_skewness, gamma_kurtosis. set (m := a / b) in *.
  assert (SA : 0 < sqrt a) by (apply sqrt_lt_R0, Ha).
  split; [refine (gam_ext _ _ _ _ _ _ _ R0); intros; simpl; ring|]. split; [refine (gam_ext _ _ _ _ _ _ _ R1); intros; simpl; ring|].
  split; [|split; [|split]].
  - replace (a / b ^ 2) with (1 * ((a + 1) * a / b ^ 2) + 1 * (- 2 * m * m + m ^ 2 * 1)) by (unfold m; field; lra).
    refine (gam_ext _ _ _ _ _ _ _ (gam_lin gamma a b _ _ 1 1 _ _ R2 (gam_lin gamma a b _ _ (- 2 * m) (m ^ 2) _ _ R1 R0))). intros; cbv beta; ring.
  - replace (2 / sqrt a * sqrt (a / b ^ 2) ^ 3) with (1 * (1 * ((a + 2) * (a + 1) * a / b ^ 3) + (- 3 * m) * ((a + 1) * a / b ^ 2)) + 1 * (3 * m ^ 2 * m + (- m ^ 3) * 1)).
    + refine (gam_ext _ _ _ _ _ _ _ (gam_lin gamma a b _ _ 1 1 _ _ (gam_lin gamma a b _ _ 1 (- 3 * m) _ _ R3 R2) (gam_lin gamma a b _ _ (3 * m ^ 2) (- m ^ 3) _ _ R1 R0))). intros; cbv beta; ring.
    + assert (SB : 0 < b ^ 2) by nra. rewrite sqrt_div_alt by exact SB. rewrite sqrt_pow2 by lra. transitivity (2 * a / b ^ 3); [unfold m; field; lra|].
      rewrite <- (sqrt_sqrt a) at 1 by lra. field. lra.
  - replace ((6 / a + 3) * (a / b ^ 2) ^ 2) with (1 * ((a + 3) * (a + 2) * (a + 1) * a / b ^ 4) + 1 * (1 * ((- 4 * m) * ((a + 2) * (a + 1) * a / b ^ 3) + (6 * m ^ 2) * ((a + 1) * a / b ^ 2)) + 1 * (- 4 * m ^ 3 * m + (m ^ 4) * 1))) by (unfold m; field; lra).
    refine (gam_ext _ _ _ _ _ _ _ (gam_lin gamma a b _ _ 1 1 _ _ R4 (gam_lin gamma a b _ _ 1 1 _ _ (gam_lin gamma a b _ _ (- 4 * m) (6 * m ^ 2) _ _ R3 R2) (gam_lin gamma a b _ _ (- 4 * m ^ 3) (m ^ 4) _ _ R1 R0)))). intros; cbv beta; ring.
  - intros t Ht. unfold gamma_mgf. destruct (Rltb_spec t b); [|lra]. eexists. split; [reflexivity|].
    pose proof (gam_raw gamma gamma_li a (b - t) 0 SP Ha ltac:(lra)) as M0. replace (gamma (a + INR 0) / ((b - t) ^ 0 * gamma a)) with 1 in M0 by (simpl; rewrite Rplus_0_r; field; lra).
    apply (igen_scal (at_right 0) (Rbar_locally p_infty) _ (Rpower (1 - t / b) (- a))) in M0. rewrite Rmult_1_r in M0. refine (igen_ext_pos _ _ _ _ M0).
    intros x Hx. cbv beta. unfold gamma_pdf. destruct (Rltb_spec 0 x); [|lra]. cbn [rval]. simpl pow. rewrite Rmult_1_r.
    replace (Rpower b a) with (Rpower (1 - t / b) (- a) * Rpower (b - t) a).
    + replace (- b * x) with (- (b - t) * x + - (t * x)) by ring. rewrite exp_plus, (exp_Ropp (t * x)). pose proof (exp_pos (t * x)). field. split; lra.
    + assert (Q : 0 < 1 - t / b) by (replace (1 - t / b) with ((b - t) / b) by (field; lra); apply Rdiv_lt_0_compat; lra).
      replace (b - t) with ((1 - t / b) * b) by (field; lra). rewrite <- Rpower_mult_distr by assumption. rewrite <- Rmult_assoc, <- Rpower_plus.
      replace (- a + a) with 0 by ring. rewrite Rpower_O by exact Q. ring.
Qed.
Print Assumptions gamma_moments.

(** The distribution function is the integral of the density, strictly increasing
    between 0 and 1; for shape above 1 the mode maximises the density. *)
Theorem gamma_cdf_mode : forall gamma gamma_li a b, gamma_fn_spec gamma gamma_li -> gamma_new a b = Ret (a, b) ->
  (forall x, 0 < x -> exists F, gamma_cdf gamma gamma_li a b x = Ret F /\ 0 < F < 1 /\
     is_RInt_gen (fun y => rval (gamma_pdf gamma a b y)) (at_right 0) (at_point x) F /\
     is_derive (fun y => rval (gamma_cdf gamma gamma_li a b y)) x (rval (gamma_pdf gamma a b x))) /\
  (forall x y, 0 < x < y -> rval (gamma_cdf gamma gamma_li a b x) < rval (gamma_cdf gamma gamma_li a b y)) /\
  (1 < a -> 0 < gamma_mode a b /\ forall x, 0 < x -> rval (gamma_pdf gamma a b x) <= rval (gamma_pdf gamma a b (gamma_mode a b))).
Proof.
  intros gamma gamma_li a b SP H. unfold gamma_new in H. destruct (Rltb_spec 0 a) as [Ha|]; [|discriminate]. destruct (Rltb_spec 0 b) as [Hb|]; [|discriminate]. clear H.
  pose proof (gamma_pos gamma gamma_li SP a Ha) as GP.
  assert (C : forall x, 0 < x -> gamma_cdf gamma gamma_li a b x = Ret (gamma_li a (b * x) / gamma a)) by (intros x Hx; unfold gamma_cdf; destruct (Rltb_spec 0 x); [reflexivity|lra]).
  split; [|split].
  - intros x Hx. assert (Hbx : 0 < b * x) by nra. eexists. split; [apply C, Hx|]. split; [|split].
    + pose proof (li_pos gamma gamma_li SP a (b * x) Ha Hbx). pose proof (li_lt_gamma gamma gamma_li SP a (b * x) Ha Hbx). split; [apply Rdiv_lt_0_compat; assumption|].
      apply Rmult_lt_reg_r with (gamma a); [exact GP|]. unfold Rdiv. rewrite Rmult_assoc, Rinv_l by lra. lra.
    + assert (PT : filterlim (fun y => b * y + 0) (at_point x) (at_point (b * x))) by (intros P HP; unfold filtermap, at_point in *; rewrite Rplus_0_r; exact HP).
      pose proof (igen_affine _ _ (at_right 0) (at_point x) (gk a) b 0 _ (scale_0 b Hb) PT (proj1 (proj2 SP) a (b * x) Ha Hbx)) as H.
      apply (igen_scal (at_right 0) (at_point x) _ (/ gamma a)) in H. replace (gamma_li a (b * x) / gamma a) with (/ gamma a * gamma_li a (b * x)) by (unfold Rdiv; ring).
      refine (igen_ext_to _ _ x _ Hx _ H). intros y Hy. rewrite gam_pdf by assumption. reflexivity.
    + rewrite gam_pdf by assumption. cbn [rval]. rewrite Rplus_0_r. apply (is_derive_ext_loc (fun y => / gamma a * gamma_li a (b * y))).
      { exists (mkposreal x Hx). intros y Hy. change (Rabs (y - x) < x) in Hy. apply Rabs_lt_between in Hy. rewrite C by lra. cbn [rval]. unfold Rdiv. apply Rmult_comm. }
      apply (is_derive_scal (fun y => gamma_li a (b * y))). apply (is_derive_comp (gamma_li a) (fun y => b * y)); [apply (li_derive gamma gamma_li SP); assumption|].
      auto_derive; [exact I|]. match goal with |- ?u = ?v => change (@eq R u v) end. ring.
  - intros x y Hxy. rewrite !C by lra. cbn [rval]. unfold Rdiv. apply Rmult_lt_compat_r; [apply Rinv_0_lt_compat, GP|]. apply (li_inc gamma gamma_li SP); [exact Ha|nra].
  - intros H1. unfold gamma_mode. destruct (Rleb_spec 1 a); [|lra]. set (m := (a - 1) / b). assert (Hm : 0 < m) by (apply Rdiv_lt_0_compat; lra). split; [exact Hm|].
    intros x Hx. unfold gamma_pdf. destruct (Rltb_spec 0 x); [|lra]. destruct (Rltb_spec 0 m); [|lra]. cbn [rval].
    unfold Rdiv. apply Rmult_le_compat_r; [left; apply Rinv_0_lt_compat, GP|]. rewrite !Rmult_assoc. apply Rmult_le_compat_l; [left; apply exp_pos|].
    unfold Rpower. rewrite <- !exp_plus. assert (L : ln (x / m) <= x / m - 1).
    { pose proof (Rdiv_lt_0_compat x m Hx Hm) as Q. destruct (Req_dec (ln (x / m)) 0) as [E|N].
      - rewrite E. apply (f_equal exp) in E. rewrite exp_ln, exp_0 in E by exact Q. lra.
      - pose proof (exp_ineq1 _ N) as W. rewrite exp_ln in W by exact Q. lra. }
    unfold Rdiv in L. rewrite ln_mult, ln_Rinv in L by (try apply Rinv_0_lt_compat; assumption).
    assert (Q : (a - 1) * (x * / m - 1) = b * x - b * m) by (unfold m; field; lra).
    assert (Z : (a - 1) * ln x + - b * x <= (a - 1) * ln m + - b * m). { assert ((a - 1) * (ln x + - ln m) <= (a - 1) * (x * / m - 1)) by (apply Rmult_le_compat_l; lra). lra. }
    destruct Z as [Z|Z]; [left; apply exp_increasing, Z|rewrite Z; lra].
Qed.
Print Assumptions gamma_cdf_mode.

(** ** The specification can be met *)
Lemma mono_inf (F : R -> R) B : (forall x y, 1 <= x <= y -> F x <= F y) -> (forall x, 1 <= x -> F x <= B) -> exists l, is_lim F p_infty (Finite l).
Proof.
  intros M HB. destruct (completeness (fun v => exists x, 1 <= x /\ v = F x)) as [l [U L]].
  - exists B. intros v (x & Hx & ->). apply HB, Hx.
  - exists (F 1), 1. split; [lra|reflexivity].
  - exists l. intros P [e He]. assert (EP := cond_pos e). destruct (Classical_Prop.classic (exists x, 1 <= x /\ l - e < F x)) as [(x & Hx & Lx)|N].
    + exists x. intros y Hy. apply He. change (Rabs (F y - l) < e). assert (F y <= l) by (apply U; exists y; split; [lra|reflexivity]). pose proof (M x y ltac:(lra)). apply Rabs_def1; lra.
    + exfalso. assert (l <= l - e); [|lra]. apply L. intros v (x & Hx & ->). destruct (Rle_dec (F x) (l - e)); [assumption|]. exfalso. apply N. exists x. split; [exact Hx|lra].
Qed.
Lemma mono_zero (F : R -> R) B : (forall x y, 0 < x <= y -> y <= 1 -> F x <= F y) -> (forall x, 0 < x <= 1 -> B <= F x) -> exists l, filterlim F (at_right 0) (locally l).
Proof.
  intros M HB. destruct (completeness (fun v => exists x, 0 < x <= 1 /\ v = - F x)) as [l [U L]].
  - exists (- B). intros v (x & Hx & ->). apply Ropp_le_contravar, HB, Hx.
  - exists (- F 1), 1. split; [lra|reflexivity].
  - exists (- l). intros P [e He]. assert (EP := cond_pos e). destruct (Classical_Prop.classic (exists x, 0 < x <= 1 /\ l - e < - F x)) as [(x & Hx & Lx)|N].
    + exists (mkposreal x (proj1 Hx)). intros y Hy Py. change (Rabs (y - 0) < x) in Hy. rewrite Rminus_0_r, Rabs_right in Hy by lra. apply He. change (Rabs (F y - - l) < e).
      assert (- F y <= l) by (apply U; exists y; split; [lra|reflexivity]). pose proof (M y x ltac:(lra) ltac:(lra)). apply Rabs_def1; lra.
    + exfalso. assert (l <= l - e); [|lra]. apply L. intros v (x & Hx & ->). destruct (Rle_dec (- F x) (l - e)); [assumption|]. exfalso. apply N. exists x. split; [exact Hx|lra].
Qed.
Lemma gk_F_inc a x y : 0 < x <= y -> RInt (gk a) 1 x <= RInt (gk a) 1 y.
Proof.
  intros H. assert (E : RInt (gk a) 1 y = RInt (gk a) 1 x + RInt (gk a) x y) by (symmetry; apply (RInt_Chasles (V:=R_CompleteNormedModule)); apply gk_ex; lra).
  rewrite E. destruct (Req_dec x y) as [->|]; [assert (Z : RInt (gk a) y y = 0) by exact (RInt_point (V:=R_CompleteNormedModule) y (gk a)); rewrite Z; lra|]. pose proof (gk_int_pos a x y ltac:(lra)). lra.
Qed.
Lemma gk_F_derive a x : 0 < x -> is_derive (fun y => RInt (gk a) 1 y) x (gk a x).
Proof.
  intros Hx. apply (is_derive_RInt (V:=R_CompleteNormedModule) (gk a) (fun y => RInt (gk a) 1 y) 1 x); [|apply gk_cont, Hx].
  exists (mkposreal x Hx). intros y Hy. change (Rabs (y - x) < x) in Hy. apply Rabs_lt_between in Hy. exact (RInt_correct (V:=R_CompleteNormedModule) (gk a) 1 y (gk_ex a 1 y Rlt_0_1 ltac:(lra))).
Qed.
Lemma gk_F_inf a : exists l, is_lim (fun x => RInt (gk a) 1 x) p_infty (Finite l).
Proof.
  destruct (rpow_le_pow_uniform (a - 1)) as [n Hn]. apply (mono_inf _ (INR (fact n))).
  - intros x y H. apply gk_F_inc. lra.
  - intros x Hx. pose proof (gamma_int n 1 x) as G. apply Rle_trans with (RInt (fun t => t ^ n * exp (- t)) 1 x).
    + apply RInt_le; [exact Hx|apply gk_ex; lra|eexists; exact G|]. intros t Ht. unfold gk. apply Rmult_le_compat_r; [left; apply exp_pos|apply Hn; lra].
    + apply (is_RInt_unique (V:=R_CompleteNormedModule)) in G. rewrite G. pose proof (pois_F_bounds 1 n Rlt_0_1). pose proof (pois_F_bounds x n ltac:(lra)). pose proof (INR_fact_lt_0 n). nra.
Qed.
Lemma gk_F_zero a : 0 < a -> exists l, filterlim (fun x => RInt (gk a) 1 x) (at_right 0) (locally l).
Proof.
  intros Ha. apply (mono_zero _ (- / a)).
  - intros x y H _. apply gk_F_inc, H.
  - intros x Hx. assert (D : forall t, 0 < t -> is_derive (fun t => Rpower t a / a) t (Rpower t (a - 1))).
    { intros t Ht. replace (Rpower t (a - 1)) with (Rpower t a * / t) by (unfold Rpower; rewrite <- (exp_ln t) at 2 by exact Ht; rewrite <- exp_Ropp, <- exp_plus; f_equal; ring).
      unfold Rpower. auto_derive; [exact Ht|]. match goal with |- ?u = ?v => change (@eq R u v) end. field. lra. }
    assert (C : forall t, 0 < t -> continuous (fun t => Rpower t (a - 1)) t). { intros t Ht. apply (ex_derive_continuous (K:=R_AbsRing) (V:=R_NormedModule)). unfold Rpower. auto_derive. exact Ht. }
    assert (G : is_RInt (fun t => Rpower t (a - 1)) x 1 (minus (Rpower 1 a / a) (Rpower x a / a))).
    { apply (is_RInt_derive (V:=R_CompleteNormedModule) (fun t => Rpower t a / a)); intros t; rewrite Rmin_left, Rmax_right by lra; intros Ht; [apply D|apply C]; lra. }
    rewrite <- (opp_RInt_swap (V:=R_CompleteNormedModule)) by (apply gk_ex; lra). apply Ropp_le_contravar.
    apply Rle_trans with (RInt (fun t => Rpower t (a - 1)) x 1).
    + apply RInt_le; [lra|apply gk_ex; lra|eexists; exact G|]. intros t Ht. unfold gk. rewrite <- (Rmult_1_r (Rpower t (a - 1))) at 2. apply Rmult_le_compat_l; [left; apply exp_pos|]. rewrite <- exp_0. left. apply exp_increasing. lra.
    + apply (is_RInt_unique (V:=R_CompleteNormedModule)) in G. rewrite G. unfold minus, plus, opp. simpl. replace (Rpower 1 a) with 1 by (unfold Rpower; rewrite ln_1, Rmult_0_r, exp_0; reflexivity).
      assert (0 < Rpower x a / a) by (apply Rdiv_lt_0_compat; [apply exp_pos|exact Ha]). unfold Rdiv in *. lra.
Qed.
Example gamma_fn_exists : exists gamma gamma_li, gamma_fn_spec gamma gamma_li.
Proof.
  exists (fun a => RInt_gen (gk a) (at_right 0) (Rbar_locally p_infty)), (fun a x => if Rlt_dec 0 x then RInt_gen (gk a) (at_right 0) (at_point x) else 0).
  split; [|split].
  - intros a Ha. apply (RInt_gen_correct (V:=R_CompleteNormedModule)). destruct (gk_F_zero a Ha) as [l0 L0]. destruct (gk_F_inf a) as [l1 L1]. exists (l1 - l0).
    exact (igen_pos (fun x => RInt (gk a) 1 x) (gk a) l0 l1 (fun x => gk_F_derive a x) (fun x => gk_cont a x) L0 L1).
  - intros a x Ha Hx. destruct (Rlt_dec 0 x); [|lra]. apply (RInt_gen_correct (V:=R_CompleteNormedModule)). destruct (gk_F_zero a Ha) as [l0 L0]. exists (RInt (gk a) 1 x - l0).
    refine (igen (at_right 0) (at_point x) (fun y => RInt (gk a) 1 y) (gk a) (fun y => 0 < y) l0 (RInt (gk a) 1 x) (fun x => gk_F_derive a x) (fun x => gk_cont a x) _ L0 _).
    + apply Filter_prod with (fun y => 0 < y) (fun y => y = x); [exists (mkposreal 1 Rlt_0_1); intros; assumption|reflexivity|].
      intros u v Hu -> z [Hz _]. cbn [fst snd] in Hz. unfold Rmin in Hz. destruct (Rle_dec u x); lra.
    + intros P [e He]. unfold filtermap, at_point. apply He. apply ball_center.
  - intros a. destruct (Rlt_dec 0 0); [lra|reflexivity].
Qed.
Example gamma_case : gamma_new (3 / 2) 2 = Ret (3 / 2, 2).
Proof. unfold gamma_new. destruct (Rltb_spec 0 (3 / 2)); [|lra]. destruct (Rltb_spec 0 2); [reflexivity|lra]. Qed.
