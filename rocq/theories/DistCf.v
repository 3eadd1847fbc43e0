(** C51: characteristic functions of the gamma and the chi-squared distribution. *)
From Coq Require Import Reals ZArith PeanoNat Bool Lra Lia.
From Coquelicot Require Import Coquelicot.
From Verif Require Import Res InterpModel InterpProofs MatLib StatModel SpecialFns RGen DistModel DistDisc DistPois DistCont DistGauss DistGamma DistChi.
Open Scope R_scope.

Notation ipos f v := (is_RInt_gen f (at_right 0) (Rbar_locally p_infty) v).

(** ** Dominated integrals over the positive half line *)
Definition cpos (f : R -> R) : Prop := forall x, 0 < x -> continuous f x.
Lemma cpos_ex f x y : cpos f -> 0 < x -> 0 < y -> ex_RInt f x y.
Proof. intros C X Y. apply (ex_RInt_continuous (V:=R_CompleteNormedModule)). intros z [Hz _]. apply C. unfold Rmin in Hz. destruct (Rle_dec x y); lra. Qed.
Lemma cpos_chasles f x y z : cpos f -> 0 < x -> 0 < y -> 0 < z -> RInt f x y + RInt f y z = RInt f x z.
Proof. intros C X Y Z. apply (RInt_Chasles (V:=R_CompleteNormedModule)); apply cpos_ex; assumption. Qed.
Lemma cpos_derive f x : cpos f -> 0 < x -> is_derive (fun y => RInt f 1 y) x (f x).
Proof.
  intros C Hx. apply (is_derive_RInt (V:=R_CompleteNormedModule) f (fun y => RInt f 1 y) 1 x); [|apply C, Hx].
  exists (mkposreal x Hx). intros y Hy. change (Rabs (y - x) < x) in Hy. apply Rabs_lt_between in Hy. exact (RInt_correct (V:=R_CompleteNormedModule) f 1 y (cpos_ex f 1 y C Rlt_0_1 ltac:(lra))).
Qed.
Lemma cpos_nonneg f x y : cpos f -> (forall z, 0 < z -> 0 <= f z) -> 0 < x <= y -> 0 <= RInt f x y.
Proof. intros C P H. apply RInt_ge_0; [lra|apply cpos_ex; [exact C|lra|lra]|]. intros z Hz. apply P. lra. Qed.
Lemma ipos_bound g (v : R) x y : cpos g -> (forall z, 0 < z -> 0 <= g z) -> ipos g v -> 0 < x <= y -> RInt g x y <= v.
Proof.
  intros C P H Hxy. apply Rnot_lt_le. intros L. set (e := RInt g x y - v) in *. assert (E : 0 < e) by (unfold e; lra).
  specialize (H (fun u => Rabs (u - v) < e)). destruct H as [Q1 Q2 H1 H2 H3]. { exists (mkposreal e E). intros u Hu. exact Hu. }
  destruct H1 as [d1 H1]. destruct H2 as [M H2]. pose proof (cond_pos d1) as D1.
  set (a := Rmin (d1 / 2) x). set (b := Rmax (M + 1) y).
  assert (A : 0 < a <= x) by (unfold a; split; [apply Rmin_glb_lt; lra|apply Rmin_r]). assert (A' : a <= d1 / 2) by apply Rmin_l.
  assert (B : y <= b) by apply Rmax_r. assert (B' : M + 1 <= b) by apply Rmax_l.
  destruct (H3 a b) as (u & U1 & U2). { apply H1; [|lra]. change (Rabs (a - 0) < d1). rewrite Rminus_0_r, Rabs_pos_eq; lra. } { apply H2. lra. }
  cbn [fst snd] in U1. apply (is_RInt_unique (V:=R_CompleteNormedModule)) in U1. rewrite <- U1 in U2.
  rewrite <- (cpos_chasles g a x b), <- (cpos_chasles g x y b) in U2 by (assumption || lra).
  pose proof (cpos_nonneg g a x C P A). pose proof (cpos_nonneg g y b C P ltac:(lra)). apply Rabs_lt_between in U2. unfold e in *. lra.
Qed.
Lemma ipos_mono f B : cpos f -> (forall z, 0 < z -> 0 <= f z) -> (forall x y, 0 < x <= y -> RInt f x y <= B) -> exists u : R, ipos f u.
Proof.
  intros C P HB.
  assert (S : forall x y, 0 < x -> 0 < y -> RInt f 1 y = RInt f 1 x + RInt f x y) by (intros; symmetry; apply cpos_chasles; [exact C|lra|assumption|assumption]).
  destruct (mono_inf (fun x => RInt f 1 x) B) as [l1 L1]. { intros x y H. rewrite (S x y) by lra. pose proof (cpos_nonneg f x y C P ltac:(lra)). lra. } { intros x Hx. apply HB. lra. }
  destruct (mono_zero (fun x => RInt f 1 x) (- B)) as [l0 L0]. { intros x y H _. rewrite (S x y) by lra. pose proof (cpos_nonneg f x y C P ltac:(lra)). lra. }
  { intros x Hx. pose proof (HB x 1 ltac:(lra)). rewrite <- (opp_RInt_swap (V:=R_CompleteNormedModule)) by (apply cpos_ex; [exact C|lra|lra]). change (- B <= - RInt f x 1). lra. }
  exists (l1 - l0). exact (igen_pos _ f l0 l1 (fun x => cpos_derive f x C) C L0 L1).
Qed.
Lemma cpos_lin f g a b : cpos f -> cpos g -> cpos (fun x => a * f x + b * g x).
Proof. intros F G x X. apply (continuous_plus (V:=R_NormedModule)); apply (continuous_scal_r (V:=R_NormedModule)); [apply F|apply G]; exact X. Qed.
(** a continuous function with an integrable bound is integrable *)
Lemma ipos_dom f g (v : R) : cpos f -> cpos g -> (forall x, 0 < x -> Rabs (f x) <= g x) -> ipos g v -> exists u : R, ipos f u /\ Rabs u <= v.
Proof.
  intros F G D H. assert (GP : forall z, 0 < z -> 0 <= g z) by (intros z Z; pose proof (D z Z); pose proof (Rabs_pos (f z)); lra).
  assert (E : forall s, s = 1 \/ s = -1 -> exists u : R, ipos (fun x => 1 * g x + s * f x) u).
  { intros s Hs. apply (ipos_mono _ (2 * v)); [apply cpos_lin; assumption| |].
    - intros z Z. pose proof (Rabs_le_between' (f z) 0 (g z)) as K. pose proof (D z Z). rewrite Rminus_0_r in K. apply K in H0. destruct Hs as [-> | ->]; lra.
    - intros x y Hxy. pose proof (ipos_bound g v x y G GP H Hxy) as B. apply Rle_trans with (RInt (fun x => 2 * g x) x y).
      + apply RInt_le; [lra|apply cpos_ex; [apply cpos_lin; assumption|lra|lra]| |].
        * apply (ex_RInt_scal (V:=R_NormedModule)). apply cpos_ex; [exact G|lra|lra].
        * intros z Hz. pose proof (D z ltac:(lra)) as K. apply Rabs_le_between in K. destruct Hs as [-> | ->]; lra.
      + replace (RInt (fun x => 2 * g x) x y) with (2 * RInt g x y); [lra|]. symmetry. apply (RInt_scal (V:=R_CompleteNormedModule)). apply cpos_ex; [exact G|lra|lra]. }
  destruct (E 1 (or_introl eq_refl)) as [u U]. exists (1 * u + -1 * v).
  assert (FU : ipos f (1 * u + -1 * v)). { refine (igen_ext _ _ _ _ _ _ (igen_lin _ _ _ _ 1 (-1) _ _ U H)). intros x. cbv beta. ring. }
  split; [exact FU|]. 
  apply (RInt_gen_norm (V:=R_CompleteNormedModule) (Fa:=at_right 0) (Fb:=Rbar_locally p_infty) f g _ v); [| |exact FU|exact H].
  - apply Filter_prod with (fun x => 0 < x < 1) (fun x => 1 < x).
    + exists (mkposreal 1 Rlt_0_1). intros y Hy Py. change (Rabs (y - 0) < 1) in Hy. rewrite Rminus_0_r, Rabs_pos_eq in Hy; lra.
    + exists 1. intros; assumption.
    + intros a b Ha Hb. cbn [fst snd]. lra.
  - apply Filter_prod with (fun x => 0 < x) (fun x => 1 < x).
    + exists (mkposreal 1 Rlt_0_1). intros y Hy Py. exact Py.
    + exists 1. intros; assumption.
    + intros a b Ha Hb x Hx. cbn [fst snd] in Hx. apply D. lra.
Qed.

(** ** Second-order bounds *)
Lemma cos_sub_1 h : Rabs (cos h - 1) <= Rabs h /\ Rabs (cos h - 1) <= h ^ 2 / 2.
Proof.
  replace (cos h - 1) with (- (2 * (sin (h / 2) * sin (h / 2)))). 2:{ replace h with (2 * (h / 2)) at 3 by field. rewrite cos_2a_sin. ring. }
  rewrite Rabs_Ropp, Rabs_mult, (Rabs_pos_eq 2), Rabs_mult by lra.
  assert (S : Rabs (sin (h / 2)) <= Rabs (h / 2)).
  { destruct (MVT_gen sin 0 (h / 2) cos) as (c & _ & E). intros; apply is_derive_Reals, derivable_pt_lim_sin. intros; apply continuity_pt_filterlim, continuous_sin.
    rewrite sin_0, !Rminus_0_r in E. rewrite E, Rabs_mult. pose proof (Rabs_le 1 (cos c)) . pose proof (COS_bound c). assert (Rabs (cos c) <= 1) by (apply Rabs_le; lra). pose proof (Rabs_pos (h / 2)). nra. }
  assert (S1 : Rabs (sin (h / 2)) <= 1) by (apply Rabs_le; pose proof (SIN_bound (h / 2)); lra).
  pose proof (Rabs_pos (sin (h / 2))) as P. replace (Rabs (h / 2)) with (Rabs h / 2) in S. 2:{ unfold Rdiv. rewrite Rabs_mult, (Rabs_pos_eq (/ 2)) by lra. reflexivity. }
  rewrite <- (Rsqr_pow2 h), (Rsqr_abs h). unfold Rsqr. pose proof (Rabs_pos h). split; nra.
Qed.
Lemma sin_sub h : Rabs (sin h - h) <= h ^ 2.
Proof.
  destruct (MVT_gen (fun x => sin x - x) 0 h (fun x => cos x - 1)) as (c & Hc & E).
  - intros; auto_derive; [exact I|ring].
  - intros x _. apply continuity_pt_filterlim. apply (continuous_minus (V:=R_NormedModule)); [apply continuous_sin|apply continuous_id].
  - rewrite sin_0, !Rminus_0_r in E. rewrite E, Rabs_mult. destruct (cos_sub_1 c) as [K _].
    assert (Rabs c <= Rabs h). { unfold Rmin, Rmax in Hc. destruct (Rle_dec 0 h); [rewrite !Rabs_pos_eq|rewrite !Rabs_left1]; lra. }
    rewrite <- (Rsqr_pow2 h), (Rsqr_abs h). unfold Rsqr. pose proof (Rabs_pos h). nra.
Qed.
Lemma trig_taylor y h : Rabs (cos (y + h) - cos y + h * sin y) <= 2 * h ^ 2 /\ Rabs (sin (y + h) - sin y - h * cos y) <= 2 * h ^ 2.
Proof.
  destruct (cos_sub_1 h) as [_ C]. pose proof (sin_sub h) as S.
  assert (B1 : Rabs (cos y) <= 1) by (apply Rabs_le; pose proof (COS_bound y); lra). assert (B2 : Rabs (sin y) <= 1) by (apply Rabs_le; pose proof (SIN_bound y); lra).
  pose proof (Rabs_pos (cos y)). pose proof (Rabs_pos (sin y)). pose proof (Rabs_pos (cos h - 1)). pose proof (Rabs_pos (sin h - h)).
  rewrite cos_plus, sin_plus. split.
  - replace (cos y * cos h - sin y * sin h - cos y + h * sin y) with (cos y * (cos h - 1) + - (sin y * (sin h - h))) by ring.
    eapply Rle_trans; [apply Rabs_triang|]. rewrite Rabs_Ropp, !Rabs_mult. nra.
  - replace (sin y * cos h + cos y * sin h - sin y - h * cos y) with (sin y * (cos h - 1) + cos y * (sin h - h)) by ring.
    eapply Rle_trans; [apply Rabs_triang|]. rewrite !Rabs_mult. nra.
Qed.
Lemma derive_quadratic (F : R -> R) t d K r : 0 < r -> (forall h, Rabs h <= r -> Rabs (F (t + h) - F t - h * d) <= K * h ^ 2) -> is_derive F t d.
Proof.
  intros RP H. apply is_derive_Reals. intros e He. assert (KP : 0 < Rabs K + 1) by (pose proof (Rabs_pos K); lra).
  assert (D : 0 < e / (Rabs K + 1)) by (apply Rdiv_lt_0_compat; assumption). exists (mkposreal _ (Rmin_pos _ _ D RP)). intros h Hh Hs. cbn [pos] in Hs.
  assert (Hr : Rabs h <= r) by (left; eapply Rlt_le_trans; [exact Hs|apply Rmin_r]). apply (fun x => Rlt_le_trans _ _ _ x (Rmin_l _ _)) in Hs.
  replace ((F (t + h) - F t) / h - d) with ((F (t + h) - F t - h * d) / h) by (field; exact Hh). unfold Rdiv. rewrite Rabs_mult, Rabs_inv.
  pose proof (Rabs_pos_lt h Hh) as P. apply Rmult_lt_reg_r with (Rabs h); [exact P|]. rewrite Rmult_assoc, Rinv_l, Rmult_1_r by lra.
  eapply Rle_lt_trans; [apply H, Hr|]. rewrite <- (Rsqr_pow2 h), (Rsqr_abs h). unfold Rsqr. apply (Rmult_lt_compat_r (Rabs K + 1)) in Hs; [|exact KP]. unfold Rdiv in Hs. rewrite Rmult_assoc, Rinv_l, Rmult_1_r in Hs by lra.
  pose proof (Rle_abs K). nra.
Qed.

(** ** The transform of a density with two moments *)
Section Transform.
  Variable w : R -> R.
  Variables m0 m1 m2 : R.
  Hypothesis Wc : cpos w.
  Hypothesis Wp : forall x, 0 < x -> 0 <= w x.
  Hypothesis M0 : ipos w m0.
  Hypothesis M1 : ipos (fun x => x * w x) m1.
  Hypothesis M2 : ipos (fun x => x ^ 2 * w x) m2.
  Lemma cid : cpos (fun x => x). Proof. intros x _. apply continuous_id. Qed.
  Lemma cmul f g : cpos f -> cpos g -> cpos (fun x => f x * g x).
  Proof. intros F G x X. apply (continuous_mult (K:=R_AbsRing)); [apply F|apply G]; exact X. Qed.
  Lemma ccos t : cpos (fun x => cos (t * x)).
  Proof. intros x _. apply (ex_derive_continuous (K:=R_AbsRing) (V:=R_NormedModule)). auto_derive. exact I. Qed.
  Lemma csin t : cpos (fun x => sin (t * x)).
  Proof. intros x _. apply (ex_derive_continuous (K:=R_AbsRing) (V:=R_NormedModule)). auto_derive. exact I. Qed.
  Lemma x1 : cpos (fun x => x * w x). Proof. apply (cmul _ _ cid Wc). Qed.
  Lemma b1 z x : 0 < x -> Rabs (cos z) <= 1 /\ Rabs (sin z) <= 1.
  Proof. intros _. split; apply Rabs_le; [pose proof (COS_bound z)|pose proof (SIN_bound z)]; lra. Qed.
  Lemma domw f g v : cpos f -> cpos g -> (forall x, 0 < x -> 0 <= f x) -> (forall x, 0 < x -> Rabs (g x) <= 1) -> ipos f v -> exists u : R, ipos (fun x => f x * g x) u.
  Proof.
    intros F G P B H. destruct (ipos_dom (fun x => f x * g x) f v) as (u & U & _); [apply cmul; assumption|exact F| |exact H|exists u; exact U].
    intros x X. rewrite Rabs_mult, (Rabs_pos_eq (f x)) by (apply P, X). pose proof (P x X). pose proof (B x X). pose proof (Rabs_pos (g x)). nra.
  Qed.
  Lemma ex_C t : exists u : R, ipos (fun x => w x * cos (t * x)) u.
  Proof. apply (domw w _ m0); [exact Wc|apply ccos|exact Wp|intros x X; apply (b1 _ x X)|exact M0]. Qed.
  Lemma ex_S t : exists u : R, ipos (fun x => w x * sin (t * x)) u.
  Proof. apply (domw w _ m0); [exact Wc|apply csin|exact Wp|intros x X; apply (b1 _ x X)|exact M0]. Qed.
  Lemma xp : forall x, 0 < x -> 0 <= x * w x. Proof. intros x X. apply Rmult_le_pos; [lra|apply Wp, X]. Qed.
  Lemma ex_C1 t : exists u : R, ipos (fun x => x * w x * cos (t * x)) u.
  Proof. apply (domw (fun x => x * w x) _ m1); [exact x1|apply ccos|exact xp|intros x X; apply (b1 _ x X)|exact M1]. Qed.
  Lemma ex_S1 t : exists u : R, ipos (fun x => x * w x * sin (t * x)) u.
  Proof. apply (domw (fun x => x * w x) _ m1); [exact x1|apply csin|exact xp|intros x X; apply (b1 _ x X)|exact M1]. Qed.
  (** the transform is differentiable under the integral sign *)
  Lemma transform_derive (C S C1 S1 : R -> R) :
    (forall t, ipos (fun x => w x * cos (t * x)) (C t)) -> (forall t, ipos (fun x => w x * sin (t * x)) (S t)) ->
    (forall t, ipos (fun x => x * w x * cos (t * x)) (C1 t)) -> (forall t, ipos (fun x => x * w x * sin (t * x)) (S1 t)) ->
    forall t, is_derive C t (- S1 t) /\ is_derive S t (C1 t).
  Proof.
    intros HC HS HC1 HS1 t.
    assert (W2 : cpos (fun x => x ^ 2 * w x)). { intros x X. apply (continuous_mult (K:=R_AbsRing)); [|apply Wc, X]. apply (ex_derive_continuous (K:=R_AbsRing) (V:=R_NormedModule)). auto_derive. exact I. }
    assert (G : forall f h u, cpos f -> (forall x, 0 < x -> Rabs (f x) <= 2 * (h * x) ^ 2 * w x) -> ipos f u -> Rabs u <= 2 * m2 * h ^ 2).
    { intros f h u F B U. destruct (ipos_dom f (fun x => 2 * h ^ 2 * (x ^ 2 * w x)) (2 * h ^ 2 * m2)) as (u' & U' & D).
      - exact F.
      - intros x X. apply (continuous_scal_r (V:=R_NormedModule)). apply W2, X.
      - intros x X. eapply Rle_trans; [apply B, X|]. right. ring.
      - apply (igen_scal _ _ _ (2 * h ^ 2) _ M2).
      - rewrite (igen_unique _ _ _ _ _ U U'). eapply Rle_trans; [exact D|]. right. ring. }
    split; apply (derive_quadratic _ _ _ (2 * m2) 1 Rlt_0_1); intros h _.
    - apply (G (fun x => w x * (cos (t * x + h * x) - cos (t * x) + h * x * sin (t * x))) h).
      + apply cmul; [exact Wc|]. intros x _. apply (ex_derive_continuous (K:=R_AbsRing) (V:=R_NormedModule)). auto_derive. exact I.
      + intros x X. rewrite Rabs_mult, (Rabs_pos_eq (w x)) by (apply Wp, X). destruct (trig_taylor (t * x) (h * x)) as [K _]. pose proof (Wp x X). nra.
      + replace (C (t + h) - C t - h * - S1 t) with (1 * (1 * C (t + h) + -1 * C t) + h * S1 t) by ring.
        refine (igen_ext _ _ _ _ _ _ (igen_lin _ _ _ _ 1 h _ _ (igen_lin _ _ _ _ 1 (-1) _ _ (HC (t + h)) (HC t)) (HS1 t))). intros x. cbv beta. rewrite <- Rmult_plus_distr_r. ring.
    - apply (G (fun x => w x * (sin (t * x + h * x) - sin (t * x) - h * x * cos (t * x))) h).
      + apply cmul; [exact Wc|]. intros x _. apply (ex_derive_continuous (K:=R_AbsRing) (V:=R_NormedModule)). auto_derive. exact I.
      + intros x X. rewrite Rabs_mult, (Rabs_pos_eq (w x)) by (apply Wp, X). destruct (trig_taylor (t * x) (h * x)) as [_ K]. pose proof (Wp x X). nra.
      + replace (S (t + h) - S t - h * C1 t) with (1 * (1 * S (t + h) + -1 * S t) + - h * C1 t) by ring.
        refine (igen_ext _ _ _ _ _ _ (igen_lin _ _ _ _ 1 (- h) _ _ (igen_lin _ _ _ _ 1 (-1) _ _ (HS (t + h)) (HS t)) (HC1 t))). intros x. cbv beta. rewrite <- Rmult_plus_distr_r. ring.
  Qed.
End Transform.

(** ** The gamma density *)
Lemma lim0_bounded (F : (R -> Prop) -> Prop) {HF : Filter F} (p q : R -> R) : (forall x, Rabs (q x) <= 1) -> filterlim p F (locally 0) -> filterlim (fun x => p x * q x) F (locally 0).
Proof.
  intros B H P [e He]. specialize (H (fun y => Rabs y < e)). unfold filtermap in *. assert (K : F (fun x => Rabs (p x) < e)). { apply H. exists e. intros y Hy. change (Rabs (y - 0) < e) in Hy. rewrite Rminus_0_r in Hy. exact Hy. }
  refine (filter_imp _ _ _ K). intros x Hx. apply He. change (Rabs (p x * q x - 0) < e). rewrite Rminus_0_r, Rabs_mult. pose proof (B x). pose proof (Rabs_pos (p x)). pose proof (Rabs_pos (q x)). nra.
Qed.
Section Gam.
  Variables (gamma : R -> R) (gamma_li : R -> R -> R) (a b : R).
  Hypothesis SP : gamma_fn_spec gamma gamma_li.
  Hypothesis Ha : 0 < a.
  Hypothesis Hb : 0 < b.
  Let w (x : R) : R := / gamma a * (b * gk a (b * x + 0)).
  Let xw (x : R) : R := / gamma a * (Rpower (b * x + 0) a * exp (- (b * x + 0))).
  Lemma w_xw x : 0 < x -> x * w x = xw x.
  Proof.
    intros X. unfold w, xw, gk. rewrite Rplus_0_r. assert (P : 0 < b * x) by (apply Rmult_lt_0_compat; assumption).
    replace (Rpower (b * x) a) with ((b * x) * Rpower (b * x) (a - 1)); [ring|]. rewrite <- (Rpower_1 (b * x)) at 1 by exact P. rewrite <- Rpower_plus. f_equal. ring.
  Qed.
  Lemma xw_derive x : 0 < x -> is_derive xw x (a * w x - b * (x * w x)).
  Proof.
    intros X. assert (P : 0 < b * x) by (apply Rmult_lt_0_compat; assumption). rewrite w_xw by exact X. unfold w, xw, gk, Rpower. auto_derive. lra. rewrite Rplus_0_r.
    replace (exp (a * ln (b * x))) with ((b * x) * exp ((a - 1) * ln (b * x))). pose proof (gamma_pos gamma gamma_li SP a Ha). field. repeat split; lra.
    rewrite <- (exp_ln (b * x)) at 1 by exact P. rewrite <- exp_plus. f_equal. ring.
  Qed.
  Lemma w_cont : cpos w.
  Proof. intros x X. assert (P : 0 < b * x + 0) by (rewrite Rplus_0_r; apply Rmult_lt_0_compat; assumption). apply (ex_derive_continuous (K:=R_AbsRing) (V:=R_NormedModule)). unfold w, gk, Rpower. auto_derive. exact P. Qed.
  Lemma w_nonneg x : 0 < x -> 0 <= w x.
  Proof. intros _. unfold w. pose proof (gamma_pos gamma gamma_li SP a Ha). pose proof (gk_pos a (b * x + 0)). apply Rmult_le_pos; [left; apply Rinv_0_lt_compat; lra|nra]. Qed.
  Lemma xw_0 : filterlim xw (at_right 0) (locally 0).
  Proof.
    replace 0 with (/ gamma a * 0) at 2 by ring. unfold xw.
    apply (filterlim_comp _ _ _ (fun x => b * x + 0) (fun y => / gamma a * (Rpower y a * exp (- y))) _ (at_right 0)). apply scale_0, Hb.
    apply (filterlim_comp _ _ _ (fun y => Rpower y a * exp (- y)) (fun z => / gamma a * z) _ (locally 0)). apply rpow_exp_0, Ha.
    apply (continuous_scal_r (V:=R_NormedModule) (/ gamma a) (fun z => z) 0). apply continuous_id.
  Qed.
  Lemma xw_inf : filterlim xw (Rbar_locally p_infty) (locally 0).
  Proof.
    replace 0 with (/ gamma a * 0) at 1 by ring. unfold xw.
    apply (filterlim_comp _ _ _ (fun x => b * x + 0) (fun y => / gamma a * (Rpower y a * exp (- y))) _ (Rbar_locally p_infty)). apply aff_p, Hb.
    apply (filterlim_comp _ _ _ (fun y => Rpower y a * exp (- y)) (fun z => / gamma a * z) _ (locally 0)). exact (rpow_exp_inf a).
    apply (continuous_scal_r (V:=R_NormedModule) (/ gamma a) (fun z => z) 0). apply continuous_id.
  Qed.
  Lemma w_raw n : ipos (fun x => x ^ n * w x) (gamma (a + INR n) / (b ^ n * gamma a)).
  Proof.
    refine (igen_ext_pos _ _ _ _ (gam_raw gamma gamma_li a b n SP Ha Hb)). intros x X. cbv beta. rewrite gam_pdf by assumption. cbn [rval]. unfold w. ring.
  Qed.
  (** integration by parts *)
  Lemma gam_parts (C S C1 S1 : R) t :
    ipos (fun x => w x * cos (t * x)) C -> ipos (fun x => w x * sin (t * x)) S ->
    ipos (fun x => x * w x * cos (t * x)) C1 -> ipos (fun x => x * w x * sin (t * x)) S1 ->
    b * C1 + t * S1 = a * C /\ b * S1 - t * C1 = a * S.
  Proof.
    intros HC HS HC1 HS1.
    assert (BC : forall x, Rabs (cos (t * x)) <= 1) by (intros; apply (b1 _ 1 Rlt_0_1)). assert (BS : forall x, Rabs (sin (t * x)) <= 1) by (intros; apply (b1 _ 1 Rlt_0_1)).
    assert (I1 : ipos (fun x => (a * w x - b * (x * w x)) * cos (t * x) - t * (x * w x) * sin (t * x)) (0 - 0)).
    { apply (igen_pos (fun x => xw x * cos (t * x))).
      - intros x X.
        assert (D : is_derive (fun x => cos (t * x)) x (- t * sin (t * x))) by (auto_derive; [exact I|ring]).
        evar_last. apply (is_derive_mult (K:=R_AbsRing) xw (fun x => cos (t * x)) x _ _ (xw_derive x X) D). intros; apply Rmult_comm. unfold plus, mult; simpl. rewrite <- (w_xw x X). ring.
      - intros x X. apply (continuous_minus (V:=R_NormedModule)).
        apply (cmul (fun x => a * w x - b * (x * w x)) (fun x => cos (t * x))); [|apply ccos|exact X]. intros y Y. apply (continuous_minus (V:=R_NormedModule)); apply (continuous_scal_r (V:=R_NormedModule)); [apply w_cont, Y|apply (cmul _ _ cid w_cont), Y].
        apply (cmul (fun x => t * (x * w x)) (fun x => sin (t * x))); [|apply csin|exact X]. intros y Y. apply (continuous_scal_r (V:=R_NormedModule)), (cmul _ _ cid w_cont), Y.
      - apply lim0_bounded; [apply _|exact BC|exact xw_0].
      - apply (lim0_bounded (Rbar_locally p_infty)); [exact BC|exact xw_inf]. }
    assert (I2 : ipos (fun x => (a * w x - b * (x * w x)) * sin (t * x) + t * (x * w x) * cos (t * x)) (0 - 0)).
    { apply (igen_pos (fun x => xw x * sin (t * x))).
      - intros x X.
        assert (D : is_derive (fun x => sin (t * x)) x (t * cos (t * x))) by (auto_derive; [exact I|ring]).
        evar_last. apply (is_derive_mult (K:=R_AbsRing) xw (fun x => sin (t * x)) x _ _ (xw_derive x X) D). intros; apply Rmult_comm. unfold plus, mult; simpl. rewrite <- (w_xw x X). ring.
      - intros x X. apply (continuous_plus (V:=R_NormedModule)).
        apply (cmul (fun x => a * w x - b * (x * w x)) (fun x => sin (t * x))); [|apply csin|exact X]. intros y Y. apply (continuous_minus (V:=R_NormedModule)); apply (continuous_scal_r (V:=R_NormedModule)); [apply w_cont, Y|apply (cmul _ _ cid w_cont), Y].
        apply (cmul (fun x => t * (x * w x)) (fun x => cos (t * x))); [|apply ccos|exact X]. intros y Y. apply (continuous_scal_r (V:=R_NormedModule)), (cmul _ _ cid w_cont), Y.
      - apply lim0_bounded; [apply _|exact BS|exact xw_0].
      - apply (lim0_bounded (Rbar_locally p_infty)); [exact BS|exact xw_inf]. }
    pose proof (igen_lin _ _ _ _ 1 1 _ _ (igen_lin _ _ _ _ a (- b) _ _ HC HC1) (igen_scal _ _ _ (- t) _ HS1)) as J1.
    pose proof (igen_lin _ _ _ _ 1 1 _ _ (igen_lin _ _ _ _ a (- b) _ _ HS HS1) (igen_scal _ _ _ t _ HC1)) as J2.
    split.
    - enough (E : 0 - 0 = 1 * (a * C + - b * C1) + 1 * (- t * S1)) by lra. apply (igen_unique _ _ _ _ _ I1). refine (igen_ext _ _ _ _ _ _ J1). intros x. cbv beta. ring.
    - enough (E : 0 - 0 = 1 * (a * S + - b * S1) + 1 * (t * C1)) by lra. apply (igen_unique _ _ _ _ _ I2). refine (igen_ext _ _ _ _ _ _ J2). intros x. cbv beta. ring.
  Qed.
End Gam.
Lemma const_of_derive (F : R -> R) : (forall t, is_derive F t 0) -> forall t, F t = F 0.
Proof.
  intros D t. destruct (MVT_gen F 0 t (fun _ => 0)) as (c & _ & E). intros; apply D.
  intros x _. apply continuity_pt_filterlim, (ex_derive_continuous (K:=R_AbsRing) (V:=R_NormedModule)). exists 0. apply D. lra.
Qed.
Lemma cf_r_derive a b t : 0 < b -> is_derive (fun t => exp (a / 2 * ln (1 + t ^ 2 / b ^ 2))) t (a * t / (b ^ 2 + t ^ 2) * exp (a / 2 * ln (1 + t ^ 2 / b ^ 2))).
Proof.
  intros B. assert (P : 0 < b ^ 2) by (apply pow_lt, B). pose proof (pow2_ge_0 t) as T. assert (Q : 0 <= t ^ 2 / b ^ 2) by (apply Rmult_le_pos; [exact T|left; apply Rinv_0_lt_compat, P]).
  assert (D : is_derive (fun t => 1 + t ^ 2 / b ^ 2) t (2 * t / b ^ 2)) by (auto_derive; [exact I|field; lra]).
  assert (E : is_derive (fun y => exp (a / 2 * ln y)) (1 + t ^ 2 / b ^ 2) (a / 2 / (1 + t ^ 2 / b ^ 2) * exp (a / 2 * ln (1 + t ^ 2 / b ^ 2)))).
  { assert (QP : 0 < 1 + t ^ 2 / b ^ 2) by lra. set (q := 1 + t ^ 2 / b ^ 2) in *. clearbody q. auto_derive; [exact QP|]. field. lra. }
  evar_last. exact (is_derive_comp _ _ _ _ _ E D). unfold scal; simpl; unfold mult; simpl. set (x := exp _). clearbody x. simpl in *. field. repeat split; lra.
Qed.
Lemma cf_th_derive a b t : 0 < b -> is_derive (fun t => a * atan (t / b)) t (a * b / (b ^ 2 + t ^ 2)).
Proof.
  intros B. assert (P : 0 < b ^ 2) by (apply pow_lt, B). pose proof (pow2_ge_0 t) as T. evar_last. apply is_derive_scal. apply (is_derive_comp atan (fun t => t / b)).
  apply is_derive_Reals, derivable_pt_lim_atan. auto_derive; [exact I|reflexivity].
  unfold scal; simpl; unfold mult; simpl. unfold Rsqr. assert (1 + t * / b * (t * / b) <> 0). { assert (0 <= (t * / b) * (t * / b)) by apply Rle_0_sqr. lra. } field. repeat split; nra.
Qed.
(** The characteristic function of the gamma distribution is the expectation of
    exp (i t X) for the density the same type returns. *)
Theorem gamma_cf_correct : forall gamma gamma_li a b t, gamma_fn_spec gamma gamma_li -> gamma_new a b = Ret (a, b) ->
  gam_E gamma a b (fun x => cos (t * x)) (fst (gamma_cf a b t)) /\ gam_E gamma a b (fun x => sin (t * x)) (snd (gamma_cf a b t)).
Proof.
  intros gamma gamma_li a b t SP H. unfold gamma_new in H. destruct (Rltb_spec 0 a) as [Ha|]; [|discriminate]. destruct (Rltb_spec 0 b) as [Hb|]; [|discriminate]. clear H.
  pose proof (gamma_pos gamma gamma_li SP a Ha) as GP.
  set (w := fun x => / gamma a * (b * gk a (b * x + 0))).
  pose proof (w_cont gamma a b Hb : cpos w) as Wc. pose proof (w_nonneg gamma gamma_li a b SP Ha Hb : forall x, 0 < x -> 0 <= w x) as Wp.
  pose proof (fun n => w_raw gamma gamma_li a b SP Ha Hb n : ipos (fun x => x ^ n * w x) _) as Wr.
  assert (M0 : ipos w 1). { replace 1 with (gamma (a + INR 0) / (b ^ 0 * gamma a)) by (simpl; rewrite Rplus_0_r; field; lra). refine (igen_ext _ _ _ _ _ _ (Wr 0%nat)). intros x. simpl. ring. }
  assert (M1 : ipos (fun x => x * w x) (gamma (a + INR 1) / (b ^ 1 * gamma a))) by (refine (igen_ext _ _ _ _ _ _ (Wr 1%nat)); intros x; simpl; ring). pose proof (Wr 2%nat) as M2.
  set (Ct := fun t => RInt_gen (fun x => w x * cos (t * x)) (at_right 0) (Rbar_locally p_infty)).
  set (St := fun t => RInt_gen (fun x => w x * sin (t * x)) (at_right 0) (Rbar_locally p_infty)).
  set (C1 := fun t => RInt_gen (fun x => x * w x * cos (t * x)) (at_right 0) (Rbar_locally p_infty)).
  set (S1 := fun t => RInt_gen (fun x => x * w x * sin (t * x)) (at_right 0) (Rbar_locally p_infty)).
  assert (HC : forall t, ipos (fun x => w x * cos (t * x)) (Ct t)). { intros s. apply (RInt_gen_correct (V:=R_CompleteNormedModule)). exact (ex_C w 1 Wc Wp M0 s). }
  assert (HS : forall t, ipos (fun x => w x * sin (t * x)) (St t)). { intros s. apply (RInt_gen_correct (V:=R_CompleteNormedModule)). exact (ex_S w 1 Wc Wp M0 s). }
  assert (HC1 : forall t, ipos (fun x => x * w x * cos (t * x)) (C1 t)). { intros s. apply (RInt_gen_correct (V:=R_CompleteNormedModule)). exact (ex_C1 w _ Wc Wp M1 s). }
  assert (HS1 : forall t, ipos (fun x => x * w x * sin (t * x)) (S1 t)). { intros s. apply (RInt_gen_correct (V:=R_CompleteNormedModule)). exact (ex_S1 w _ Wc Wp M1 s). }
  assert (D := transform_derive w _ Wc Wp M2 Ct St C1 S1 HC HS HC1 HS1).
  assert (IP := fun s => gam_parts gamma gamma_li a b SP Ha Hb _ _ _ _ s (HC s) (HS s) (HC1 s) (HS1 s)).
  clearbody Ct St C1 S1.
  set (r := fun t => exp (a / 2 * ln (1 + t ^ 2 / b ^ 2))). set (th := fun t => a * atan (t / b)).
  assert (BP : forall s, 0 < b ^ 2 + s ^ 2). { intros s. pose proof (pow_lt b 2 Hb). pose proof (pow2_ge_0 s). lra. }
  assert (EC1 : forall s, C1 s = a * (b * Ct s - s * St s) / (b ^ 2 + s ^ 2)). { intros s. destruct (IP s) as [E1 E2]. pose proof (BP s). apply Rmult_eq_reg_r with (b ^ 2 + s ^ 2); [|lra]. unfold Rdiv. rewrite Rmult_assoc, Rinv_l by lra. replace (a * (b * Ct s - s * St s)) with (b * (a * Ct s) - s * (a * St s)) by ring. rewrite <- E1, <- E2. ring. }
  assert (ES1 : forall s, S1 s = a * (b * St s + s * Ct s) / (b ^ 2 + s ^ 2)). { intros s. destruct (IP s) as [E1 E2]. pose proof (BP s). apply Rmult_eq_reg_r with (b ^ 2 + s ^ 2); [|lra]. unfold Rdiv. rewrite Rmult_assoc, Rinv_l by lra. replace (a * (b * St s + s * Ct s)) with (b * (a * St s) + s * (a * Ct s)) by ring. rewrite <- E1, <- E2. ring. }
  assert (DA : forall s, is_derive (fun s => (Ct s * cos (th s) + St s * sin (th s)) * r s) s 0 /\ is_derive (fun s => (St s * cos (th s) - Ct s * sin (th s)) * r s) s 0).
  { intros s. destruct (D s) as [D1 D2]. pose proof (cf_r_derive a b s Hb) as D3. pose proof (cf_th_derive a b s Hb) as D4. change (is_derive r s (a * s / (b ^ 2 + s ^ 2) * r s)) in D3. change (is_derive th s (a * b / (b ^ 2 + s ^ 2))) in D4. rewrite EC1 in D2. rewrite ES1 in D1.
    clearbody r th. pose proof (BP s) as Q. pose proof (is_derive_unique (fun x : R => Ct x) _ _ D1 : Derive (fun x : R => Ct x) s = _) as U1. pose proof (is_derive_unique (fun x : R => St x) _ _ D2 : Derive (fun x : R => St x) s = _) as U2. pose proof (is_derive_unique (fun x : R => r x) _ _ D3 : Derive (fun x : R => r x) s = _) as U3. pose proof (is_derive_unique (fun x : R => th x) _ _ D4 : Derive (fun x : R => th x) s = _) as U4.
    split; auto_derive.
    - repeat split; eexists; eassumption.
    - rewrite U1, U2, U3, U4. field. lra.
    - repeat split; eexists; eassumption.
    - rewrite U1, U2, U3, U4. field. lra. }
  assert (C0 : Ct 0 = 1). { apply (igen_unique _ _ _ _ _ (HC 0)). refine (igen_ext _ _ _ _ _ _ M0). intros x. cbv beta. rewrite (Rmult_0_l x), cos_0. ring. }
  assert (S0 : St 0 = 0). { apply (igen_unique _ _ _ _ _ (HS 0)). replace 0 with (0 * 1) at 2 by ring. refine (igen_ext _ _ _ _ _ _ (igen_scal _ _ _ 0 _ M0)). intros x. cbv beta. rewrite (Rmult_0_l x), sin_0. ring. }
  assert (R0 : r 0 = 1). { unfold r. replace (1 + 0 ^ 2 / b ^ 2) with 1 by (field; lra). rewrite ln_1, Rmult_0_r. apply exp_0. }
  assert (T0 : th 0 = 0). { unfold th. replace (0 / b) with 0 by (field; lra). rewrite atan_0. ring. }
  pose proof (const_of_derive _ (fun s => proj1 (DA s)) t) as K1. pose proof (const_of_derive _ (fun s => proj2 (DA s)) t) as K2. cbv beta in K1, K2.
  rewrite C0, S0, R0, T0, cos_0, sin_0 in K1, K2. 
  assert (RP : 0 < r t) by apply exp_pos. pose proof (sin2_cos2 (th t)) as SC. unfold Rsqr in SC.
  assert (EC : Ct t = / r t * cos (th t)). { apply Rmult_eq_reg_r with (r t); [|lra]. rewrite (Rmult_comm (/ r t)), Rmult_assoc, Rinv_l by lra.
    transitivity ((Ct t * cos (th t) + St t * sin (th t)) * r t * cos (th t) - (St t * cos (th t) - Ct t * sin (th t)) * r t * sin (th t)); [|rewrite K1, K2; ring].
    replace (Ct t * r t) with (Ct t * r t * (sin (th t) * sin (th t) + cos (th t) * cos (th t))) by (rewrite SC; ring). ring. }
  assert (ES : St t = / r t * sin (th t)). { apply Rmult_eq_reg_r with (r t); [|lra]. rewrite (Rmult_comm (/ r t)), Rmult_assoc, Rinv_l by lra.
    transitivity ((Ct t * cos (th t) + St t * sin (th t)) * r t * sin (th t) + (St t * cos (th t) - Ct t * sin (th t)) * r t * cos (th t)); [|rewrite K1, K2; ring].
    replace (St t * r t) with (St t * r t * (sin (th t) * sin (th t) + cos (th t) * cos (th t))) by (rewrite SC; ring). ring. }
  assert (EG : gamma_cf a b t = (/ r t * cos (th t), / r t * sin (th t))).
  { unfold gamma_cf. replace (Cminus (RtoC 1) (Cdiv (Cmult (it 1) (RtoC t)) (RtoC b))) with (1, - (t / b)).
    2:{ unfold Cminus, Cdiv, Cmult, Cplus, Copp, Cinv, RtoC, it. cbn [fst snd]. f_equal; field; lra. }
    unfold cpowf. cbn [fst snd]. replace (- (t / b) / 1) with (- (t / b)) by (field; lra). rewrite atan_opp. replace (- a * - atan (t / b)) with (th t) by (unfold th; ring).
    replace (Rpower (sqrt (1 ^ 2 + (- (t / b)) ^ 2)) (- a)) with (/ r t); [reflexivity|].
    assert (QP : 0 < 1 + t ^ 2 / b ^ 2). { pose proof (pow2_ge_0 t). pose proof (Rinv_0_lt_compat _ (pow_lt b 2 Hb)). assert (0 <= t ^ 2 / b ^ 2) by (apply Rmult_le_pos; lra). lra. }
    replace (1 ^ 2 + (- (t / b)) ^ 2) with (1 + t ^ 2 / b ^ 2) by (field; lra). unfold r. rewrite Rpower_Ropp. f_equal. rewrite <- Rpower_sqrt by exact QP. rewrite Rpower_mult. unfold Rpower. f_equal. field. }
  rewrite EG. cbn [fst snd]. rewrite <- EC, <- ES. split.
  - refine (igen_ext_pos _ _ _ _ (HC t)). intros x X. cbv beta. rewrite gam_pdf by assumption. reflexivity.
  - refine (igen_ext_pos _ _ _ _ (HS t)). intros x X. cbv beta. rewrite gam_pdf by assumption. reflexivity.
Qed.
Print Assumptions gamma_cf_correct.
Theorem chi_cf_correct : forall gamma gamma_li k t, gamma_fn_spec gamma gamma_li -> chi_new k = Ret k ->
  chi_E gamma k (fun x => cos (t * x)) (fst (chi_cf k t)) /\ chi_E gamma k (fun x => sin (t * x)) (snd (chi_cf k t)).
Proof.
  intros gamma gamma_li k t SP H. pose proof (chi_k k H) as K.
  assert (OK : gamma_new (INR k / 2) (1 / 2) = Ret (INR k / 2, 1 / 2)) by (apply gamma_ok; lra).
  assert (T : forall f v, gam_E gamma (INR k / 2) (1 / 2) f v -> chi_E gamma k f v). { intros f v. refine (igen_ext_pos _ _ v _). intros x Hx. rewrite chi_pdf_gamma by exact Hx. reflexivity. }
  replace (chi_cf k t) with (gamma_cf (INR k / 2) (1 / 2) t).
  - destruct (gamma_cf_correct gamma gamma_li _ _ t SP OK). split; apply T; assumption.
  - unfold gamma_cf, chi_cf. f_equal. unfold Cminus, Cdiv, Cmult, Cplus, Copp, Cinv, RtoC, it. cbn [fst snd]. f_equal; field.
Qed.
Print Assumptions chi_cf_correct.
Example cf_case : exists gamma gamma_li, gamma_fn_spec gamma gamma_li /\ gamma_new (3 / 2) 2 = Ret (3 / 2, 2) /\ chi_new 3 = Ret 3%nat.
Proof. destruct gamma_fn_exists as (g & gl & H). exists g, gl. split; [exact H|]. split; [exact gamma_case|reflexivity]. Qed.
