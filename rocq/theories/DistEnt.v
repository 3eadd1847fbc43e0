(** C51: the entropy of the chi-squared distribution, through the derivative of the gamma function. *)
From Coq Require Import Reals ZArith PeanoNat Bool Lra Lia Psatz.
From Coquelicot Require Import Coquelicot.
From Verif Require Import Res InterpModel InterpProofs MatLib StatModel SpecialFns RGen DistModel DistDisc DistPois DistCont DistGauss DistGamma DistChi DistCf.
Open Scope R_scope.

(** what is assumed of statrs' digamma: it is the logarithmic derivative of gamma *)
Definition digamma_spec (gamma digamma : R -> R) : Prop := forall a, 0 < a -> is_derive gamma a (gamma a * digamma a).

Lemma exp_sub_1 y : Rabs (exp y - 1) <= Rabs y * exp (Rabs y).
Proof.
  destruct (MVT_gen exp 0 y exp) as (c & Hc & E). intros; apply is_derive_Reals, derivable_pt_lim_exp. intros x _; apply continuity_pt_filterlim, continuous_exp.
  rewrite exp_0, Rminus_0_r in E. rewrite E, Rabs_mult, (Rabs_pos_eq (exp c)) by (left; apply exp_pos). rewrite Rmult_comm. apply Rmult_le_compat_l. apply Rabs_pos.
  assert (K : c <= Rabs y). { unfold Rmin, Rmax in Hc. destruct (Rle_dec 0 y). rewrite Rabs_pos_eq; lra. pose proof (Rabs_pos y). lra. }
  destruct K as [K | ->]. left. apply exp_increasing, K. lra.
Qed.
Lemma exp_sub_2 y : Rabs (exp y - 1 - y) <= y ^ 2 * exp (Rabs y).
Proof.
  destruct (MVT_gen (fun x => exp x - x) 0 y (fun x => exp x - 1)) as (c & Hc & E). intros; auto_derive; [exact I|ring].
  intros x _. apply continuity_pt_filterlim. apply (continuous_minus (V:=R_NormedModule)); [apply continuous_exp|apply continuous_id].
  rewrite exp_0, !Rminus_0_r in E. replace (exp y - 1 - y) with ((exp c - 1) * y) by lra. rewrite Rabs_mult.
  assert (K : Rabs c <= Rabs y). { unfold Rmin, Rmax in Hc. destruct (Rle_dec 0 y); [rewrite !Rabs_pos_eq|rewrite !Rabs_left1]; lra. }
  pose proof (exp_sub_1 c) as B. assert (exp (Rabs c) <= exp (Rabs y)) by (destruct K as [K | ->]; [left; apply exp_increasing, K|lra]).
  rewrite <- (Rsqr_pow2 y), (Rsqr_abs y). unfold Rsqr. pose proof (Rabs_pos y). pose proof (Rabs_pos c). pose proof (exp_pos (Rabs c)). pose proof (exp_pos (Rabs y)). pose proof (Rabs_pos (exp c - 1)).
  assert (Rabs c * exp (Rabs c) <= Rabs y * exp (Rabs y)) by (apply Rmult_le_compat; lra). nra.
Qed.
(** the envelope t^c + t^-c *)
Definition env (c t : R) : R := Rpower t c + Rpower t (- c).
Lemma env_facts c t : 0 < c -> 0 < t -> exp (c * Rabs (ln t)) <= env c t /\ Rabs (ln t) <= env c t / c.
Proof.
  intros C T. assert (A : exp (c * Rabs (ln t)) <= env c t).
  { unfold env, Rpower. pose proof (exp_pos (c * ln t)). pose proof (exp_pos (- c * ln t)). unfold Rabs. destruct (Rcase_abs (ln t)); [replace (c * - ln t) with (- c * ln t) by ring|]; lra. }
  split; [exact A|]. apply Rle_div_r; [exact C|]. pose proof (exp_ineq1_le (c * Rabs (ln t))). lra.
Qed.
Lemma env_gk a h t : gk a t * Rpower t h = gk (a + h) t.
Proof. unfold gk. replace (a + h - 1) with ((a - 1) + h) by ring. rewrite Rpower_plus. ring. Qed.
Lemma env_cube c t : env c t ^ 3 <= 4 * env (3 * c) t.
Proof.
  unfold env. replace (Rpower t (3 * c)) with (Rpower t c ^ 3). 2:{ simpl. unfold Rpower. rewrite Rmult_1_r, <- !exp_plus. f_equal. ring. }
  replace (Rpower t (- (3 * c))) with (Rpower t (- c) ^ 3). 2:{ simpl. unfold Rpower. rewrite Rmult_1_r, <- !exp_plus. f_equal. ring. }
  assert (P : 0 < Rpower t c) by apply exp_pos. assert (Q : 0 < Rpower t (- c)) by apply exp_pos. set (p := Rpower t c) in *. set (q := Rpower t (- c)) in *. clearbody p q.
  replace (4 * (p ^ 3 + q ^ 3) - 0) with (4 * (p ^ 3 + q ^ 3)) by ring. assert (0 <= 3 * (p + q) * (p - q) ^ 2) by (apply Rmult_le_pos; [lra|apply pow2_ge_0]). nra.
Qed.
Section Log.
  Variables (gamma : R -> R) (gamma_li : R -> R -> R).
  Hypothesis SP : gamma_fn_spec gamma gamma_li.
  Lemma cgk a : cpos (gk a). Proof. intros x X. apply gk_cont, X. Qed.
  Lemma cln : cpos ln. Proof. intros x X. apply (ex_derive_continuous (K:=R_AbsRing) (V:=R_NormedModule)). auto_derive. exact X. Qed.
  Lemma env_int a h : 0 < a - h -> 0 < a + h -> ipos (fun t => gk a t * env h t) (1 * gamma (a + h) + 1 * gamma (a - h)).
  Proof.
    intros A B. refine (igen_ext _ _ _ _ _ _ (igen_lin _ _ _ _ 1 1 _ _ (proj1 SP _ B) (proj1 SP _ A))). intros t. cbv beta. unfold env. rewrite Rmult_plus_distr_l, !env_gk. unfold Rminus. ring.
  Qed.
  Lemma cenv a h : cpos (fun t => gk a t * env h t).
  Proof. intros x X. apply (ex_derive_continuous (K:=R_AbsRing) (V:=R_NormedModule)). unfold gk, env, Rpower. auto_derive. repeat split; assumption. Qed.
  (** the derivative of the gamma function is the logarithmic moment *)
  Lemma gamma_derive a : 0 < a -> exists u : R, ipos (fun t => gk a t * ln t) u /\ is_derive gamma a u.
  Proof.
    intros A. set (c := a / 6). assert (C : 0 < c) by (unfold c; lra).
    destruct (ipos_dom (fun t => gk a t * ln t) (fun t => / c * (gk a t * env c t)) (/ c * (1 * gamma (a + c) + 1 * gamma (a - c)))) as (u & U & _).
    - apply cmul; [apply cgk|apply cln].
    - intros x X. apply (continuous_scal_r (V:=R_NormedModule)). apply cenv, X.
    - intros x X. destruct (env_facts c x C X) as [_ L]. pose proof (gk_pos a x) as G. rewrite Rabs_mult, (Rabs_pos_eq (gk a x)) by lra. replace (/ c * (gk a x * env c x)) with (gk a x * (env c x / c)) by (unfold Rdiv; ring). apply Rmult_le_compat_l; lra.
    - apply (igen_scal _ _ _ (/ c)). apply env_int; unfold c; lra.
    - exists u. split; [exact U|]. apply (derive_quadratic gamma a u (4 / c ^ 2 * (1 * gamma (a + 3 * c) + 1 * gamma (a - 3 * c))) c C). intros h Hh.
      destruct (ipos_dom (fun t => gk a t * (Rpower t h - 1 - h * ln t)) (fun t => 4 * h ^ 2 / c ^ 2 * (gk a t * env (3 * c) t)) (4 * h ^ 2 / c ^ 2 * (1 * gamma (a + 3 * c) + 1 * gamma (a - 3 * c)))) as (v & V & B).
      + apply cmul; [apply cgk|]. intros x X. apply (ex_derive_continuous (K:=R_AbsRing) (V:=R_NormedModule)). unfold Rpower. auto_derive. repeat split; assumption.
      + intros x X. apply (continuous_scal_r (V:=R_NormedModule)). apply cenv, X.
      + intros t T. pose proof (gk_pos a t) as G. rewrite Rabs_mult, (Rabs_pos_eq (gk a t)) by lra. replace (4 * h ^ 2 / c ^ 2 * (gk a t * env (3 * c) t)) with (gk a t * (h ^ 2 / c ^ 2 * (4 * env (3 * c) t))) by (unfold Rdiv; ring). apply Rmult_le_compat_l; [lra|].
        pose proof (exp_sub_2 (h * ln t)) as E. destruct (env_facts c t C T) as [E1 E2]. pose proof (env_cube c t) as E3. eapply Rle_trans; [exact E|].
        assert (EP : 0 < env c t) by (unfold env; pose proof (exp_pos (c * ln t)); pose proof (exp_pos (- c * ln t)); unfold Rpower; lra).
        apply Rle_trans with (h ^ 2 / c ^ 2 * env c t ^ 2 * env c t).
        * apply Rmult_le_compat; [apply pow2_ge_0|left; apply exp_pos| |].
          -- rewrite Rpow_mult_distr. replace (h ^ 2 / c ^ 2 * env c t ^ 2) with (h ^ 2 * (env c t / c) ^ 2) by (field; lra). apply Rmult_le_compat_l; [apply pow2_ge_0|].
             rewrite <- (Rsqr_pow2 (ln t)), (Rsqr_abs (ln t)), Rsqr_pow2. apply pow_incr. split; [apply Rabs_pos|exact E2].
          -- eapply Rle_trans; [|exact E1]. rewrite Rabs_mult. assert (Q : Rabs h * Rabs (ln t) <= c * Rabs (ln t)) by (apply Rmult_le_compat_r; [apply Rabs_pos|exact Hh]). destruct Q as [Q | ->]; [left; apply exp_increasing, Q|lra].
        * replace (h ^ 2 / c ^ 2 * env c t ^ 2 * env c t) with (h ^ 2 / c ^ 2 * env c t ^ 3) by ring. apply Rmult_le_compat_l; [|exact E3]. apply Rmult_le_pos; [apply pow2_ge_0|left; apply Rinv_0_lt_compat, pow_lt, C].
      + apply (igen_scal _ _ _ (4 * h ^ 2 / c ^ 2)). apply env_int; unfold c; lra.
      + assert (AH : 0 < a + h) by (apply Rabs_le_between in Hh; unfold c in Hh; lra).
        assert (V' : ipos (fun t => gk a t * (Rpower t h - 1 - h * ln t)) (1 * (1 * gamma (a + h) + -1 * gamma a) + - h * u)).
        { refine (igen_ext _ _ _ _ _ _ (igen_lin _ _ _ _ 1 (- h) _ _ (igen_lin _ _ _ _ 1 (-1) _ _ (proj1 SP _ AH) (proj1 SP _ A)) U)). intros t. cbv beta. rewrite <- (env_gk a h t). ring. }
        replace (gamma (a + h) - gamma a - h * u) with v. eapply Rle_trans; [exact B|]. right. unfold Rdiv. ring.
        rewrite (igen_unique _ _ _ _ _ V V'). ring.
  Qed.
  Lemma log_moment digamma a b : digamma_spec gamma digamma -> 0 < a -> 0 < b -> gam_E gamma a b ln (digamma a - ln b).
  Proof.
    intros DS A B. destruct (gamma_derive a A) as (u & U & D). pose proof (gamma_pos gamma gamma_li SP a A) as GP.
    assert (E : u = gamma a * digamma a). { rewrite <- (is_derive_unique _ _ _ D). apply is_derive_unique, DS, A. }
    pose proof (igen_affine _ _ (at_right 0) (Rbar_locally p_infty) (fun t => gk a t * ln t) b 0 _ (scale_0 b B) (aff_p b 0 B) U) as H.
    pose proof (igen_affine _ _ (at_right 0) (Rbar_locally p_infty) (gk a) b 0 _ (scale_0 b B) (aff_p b 0 B) (proj1 SP a A)) as H0.
    pose proof (igen_lin _ _ _ _ (/ gamma a) (- (ln b / gamma a)) _ _ H H0) as K.
    replace (digamma a - ln b) with (/ gamma a * u + - (ln b / gamma a) * gamma a) by (rewrite E; field; lra).
    refine (igen_ext_pos _ _ _ _ K). intros x X. cbv beta. rewrite gam_pdf by assumption. cbn [rval]. rewrite (Rplus_0_r (b * x)), (ln_mult b x) by assumption. field. lra.
  Qed.
End Log.
(** The entropy of the chi-squared distribution is the expectation of minus the
    logarithm of its density. *)
Theorem chi_entropy_correct : forall gamma gamma_li digamma k, gamma_fn_spec gamma gamma_li -> digamma_spec gamma digamma -> chi_new k = Ret k ->
  chi_E gamma k (fun x => - ln (rval (chi_pdf gamma k x))) (chi_entropy gamma digamma k).
Proof.
  intros gamma gamma_li digamma k SP DS H. pose proof (chi_k k H) as K. set (a := INR k / 2). assert (A : 0 < a) by (unfold a; lra).
  pose proof (gamma_pos gamma gamma_li SP a A) as GP.
  assert (OK : gamma_new a (1 / 2) = Ret (a, 1 / 2)) by (apply gamma_ok; lra).
  assert (T : forall f v, gam_E gamma a (1 / 2) f v -> chi_E gamma k f v). { intros f v. refine (igen_ext_pos _ _ v _). intros x Hx. rewrite chi_pdf_gamma by exact Hx. reflexivity. }
  pose proof (log_moment gamma gamma_li SP digamma a (1 / 2) DS A ltac:(lra)) as L.
  destruct (gamma_moments gamma gamma_li a (1 / 2) SP OK) as (M0 & M1 & _). unfold gamma_mean in M1.
  pose proof (gam_lin _ _ _ _ _ 1 1 _ _ (gam_lin _ _ _ _ _ (1 - a) (1 / 2) _ _ L M1) (gam_lin _ _ _ _ _ (a * ln 2 + ln (gamma a)) 0 _ _ M0 M0)) as Z.
  apply T in Z. unfold chi_entropy. fold a.
  match type of Z with chi_E _ _ _ ?v => replace (a + ln (2 * gamma a) + (1 - a) * digamma a) with v end.
  - refine (igen_ext_pos _ _ _ _ Z). intros x X. cbv beta. f_equal. unfold chi_pdf. rewrite chi_dom by exact X. cbn [rval]. fold a.
    match goal with |- context [ln (?p / ?q)] => change (p / q) with (p * / q) end. rewrite ln_mult; [|apply Rmult_lt_0_compat; apply exp_pos|apply Rinv_0_lt_compat, Rmult_lt_0_compat; [apply exp_pos|exact GP]].
    rewrite ln_mult by apply exp_pos. rewrite ln_Rinv by (apply Rmult_lt_0_compat; [apply exp_pos|exact GP]). rewrite (ln_mult (Rpower 2 a)); [|apply exp_pos|exact GP].
    unfold Rpower. rewrite !ln_exp. field.
  - rewrite ln_mult by lra. replace (ln (1 / 2)) with (- ln 2) by (unfold Rdiv; rewrite Rmult_1_l, ln_Rinv by lra; reflexivity). field.
Qed.
Print Assumptions chi_entropy_correct.
Example digamma_exists : exists gamma gamma_li digamma, gamma_fn_spec gamma gamma_li /\ digamma_spec gamma digamma /\ chi_new 3 = Ret 3%nat.
Proof.
  destruct gamma_fn_exists as (g & gl & H). exists g, gl, (fun a => Derive g a / g a). split; [exact H|]. split; [|reflexivity].
  intros a A. destruct (gamma_derive g gl H a A) as (u & _ & D). pose proof (gamma_pos g gl H a A). replace (g a * (Derive g a / g a)) with u; [exact D|]. rewrite (is_derive_unique _ _ _ D). field. lra.
Qed.
