(** C51, third part: continuous uniform, exponential and Gaussian distributions. *)
From Coq Require Import Reals ZArith PeanoNat Bool Lra Lia.
From Coquelicot Require Import Coquelicot.
From Verif Require Import Res InterpModel InterpProofs MatLib StatModel SpecialFns RGen DistModel DistDisc DistPois.
Open Scope R_scope.

(** ** Continuous uniform *)
Definition oval (o : option R) : R := match o with Some v => v | None => 0 end.
(** the expectation of f under the returned density, over the support *)
Definition cunif_E (u : uniform) (f : R -> R) (v : R) : Prop :=
  is_RInt (fun x => oval (uniform_pdf u x) * f x) (ua u) (ub u) v.
Lemma uniform_cont a b u : uniform_new a b Continuous = Ret u -> u = {| ua := a; ub := b; uclass := Continuous |} /\ a <= b.
Proof. unfold uniform_new. destruct (Rleb_spec a b); [|discriminate]. intros E. split; [congruence|assumption]. Qed.
Lemma cpdf a b x : a < b -> a <= x <= b -> uniform_pdf {| ua := a; ub := b; uclass := Continuous |} x = Some (1 / (b - a)).
Proof.
  intros H Hx. unfold uniform_pdf, uwidth. cbn [ua ub uclass]. destruct (Rleb_spec a x); [|lra]. destruct (Rleb_spec x b); [|lra]. cbn [andb].
  unfold fdiv. destruct (Reqb_spec (b - a) 0); [lra|reflexivity].
Qed.
Lemma cpdf_out a b x : x < a \/ b < x -> uniform_pdf {| ua := a; ub := b; uclass := Continuous |} x = Some 0.
Proof. intros Hx. unfold uniform_pdf. cbn [ua ub]. destruct (Rleb_spec a x), (Rleb_spec x b); try reflexivity; lra. Qed.
Lemma cunif_int a b f F v : a < b -> (forall x, is_derive F x (f x)) -> (forall x, continuous f x) -> v = (F b - F a) / (b - a) ->
  cunif_E {| ua := a; ub := b; uclass := Continuous |} f v.
Proof.
  intros H HD HC ->. unfold cunif_E. cbn [ua ub]. apply (is_RInt_ext (V:=R_NormedModule) (fun x => scal (/ (b - a)) (f x))).
  { intros x. rewrite Rmin_left, Rmax_right by lra. intros Hx. rewrite cpdf by lra. cbn [oval]. unfold scal. simpl. unfold mult. simpl. unfold Rdiv. ring. }
  replace ((F b - F a) / (b - a)) with (scal (/ (b - a)) (minus (F b) (F a))) by (unfold scal, minus, plus, opp; simpl; unfold mult; simpl; unfold Rdiv; ring).
  apply (is_RInt_scal (V:=R_NormedModule)). apply (is_RInt_derive (V:=R_CompleteNormedModule)); intros; [apply HD|apply HC].
Qed.
Ltac fld := match goal with |- ?u = ?v => change (@eq R u v) end; field.
Lemma iconst a b c v : v = (b - a) * c -> is_RInt (fun _ => c) a b v.
Proof. intros ->. apply (is_RInt_const (V:=R_NormedModule)). Qed.
Ltac cont := intros; apply (ex_derive_continuous (K:=R_AbsRing) (V:=R_NormedModule)); auto_derive; repeat split; auto.

(** Mass, mean, variance, skewness, kurtosis, entropy, mgf and cf of the
    continuous uniform distribution are those of its density. *)
Theorem uniform_continuous_moments : forall a b u, uniform_new a b Continuous = Ret u -> a < b ->
  let m := uniform_mean u in
  cunif_E u (fun _ => 1) 1 /\ cunif_E u (fun x => x) m /\ cunif_E u (fun x => (x - m) ^ 2) (uniform_variance u) /\
  cunif_E u (fun x => (x - m) ^ 3) (uniform_skewness u) /\
  (exists k, uniform_kurtosis u = Some k /\ cunif_E u (fun x => (x - m) ^ 4) ((k + 3) * uniform_variance u ^ 2)) /\
  cunif_E u (fun x => - ln (oval (uniform_pdf u x))) (uniform_entropy u) /\
  (forall t, t <> 0 -> exists M, uniform_mgf u t = Some M /\ cunif_E u (fun x => exp (t * x)) M) /\
  (forall t, t <> 0 -> cunif_E u (fun x => cos (t * x)) (fst (uniform_cf u t)) /\ cunif_E u (fun x => sin (t * x)) (snd (uniform_cf u t))).
Proof.
  intros a b u Hu H. destruct (uniform_cont a b u Hu) as [-> _]. cbv zeta.
  set (m := uniform_mean _). assert (Em : m = (a + b) / 2) by (unfold m, uniform_mean; cbn [ua ub]; field). clearbody m. subst m.
  unfold uniform_variance, uniform_skewness, uniform_kurtosis. cbn [uclass ua ub]. repeat split.
  - apply cunif_int with (fun x => x); try assumption; [intros; auto_derive; [exact I|ring]|cont|fld; lra].
  - apply cunif_int with (fun x => x ^ 2 / 2); try assumption; [intros; auto_derive; [exact I|fld]|cont|fld; lra].
  - apply cunif_int with (fun x => (x - (a + b) / 2) ^ 3 / 3); try assumption; [intros; auto_derive; [exact I|fld]|cont|fld; lra].
  - apply cunif_int with (fun x => (x - (a + b) / 2) ^ 4 / 4); try assumption; [intros; auto_derive; [exact I|fld]|cont|fld; lra].
  - exists (- (6) / 5). split; [reflexivity|].
    apply cunif_int with (fun x => (x - (a + b) / 2) ^ 5 / 5); try assumption; [intros; auto_derive; [exact I|fld]|cont|fld; lra].
  - unfold cunif_E, uniform_entropy, uwidth. cbn [ua ub uclass]. apply (is_RInt_ext (V:=R_NormedModule) (fun _ => / (b - a) * ln (b - a))).
    { intros x. rewrite Rmin_left, Rmax_right by lra. intros Hx. rewrite cpdf by lra. cbn [oval]. unfold Rdiv. rewrite Rmult_1_l, ln_Rinv by lra. match goal with |- ?u = ?v => change (@eq R u v) end. ring. }
    apply iconst. field. lra.
  - intros t Ht. unfold uniform_mgf. cbn [uclass ua ub]. unfold fdiv. destruct (Reqb_spec (t * (b - a)) 0) as [Z|_]; [apply Rmult_integral in Z; lra|].
    eexists. split; [reflexivity|]. apply cunif_int with (fun x => exp (t * x) / t); try assumption; [intros; auto_derive; [exact I|fld; lra]|cont|fld; lra].
  - unfold uniform_cf. cbn [uclass ua ub]. rewrite !cexp_it.
    apply cunif_int with (fun x => sin (t * x) / t); try assumption; [intros; auto_derive; [exact I|fld; lra]|cont|].
    unfold Cdiv, Cinv, Cmult, Cminus, Cplus, Copp, RtoC, it. cbn [fst snd]. assert (K : 0 < (t * (b - a)) ^ 2) by (apply pow2_gt_0; intro Z; apply Rmult_integral in Z; lra).
    field. repeat split; try lra; try assumption; nra.
  - unfold uniform_cf. cbn [uclass ua ub]. rewrite !cexp_it.
    apply cunif_int with (fun x => - cos (t * x) / t); try assumption; [intros; auto_derive; [exact I|fld; lra]|cont|].
    unfold Cdiv, Cinv, Cmult, Cminus, Cplus, Copp, RtoC, it. cbn [fst snd]. assert (K : 0 < (t * (b - a)) ^ 2) by (apply pow2_gt_0; intro Z; apply Rmult_integral in Z; lra).
    field. repeat split; try lra; try assumption; nra.
Qed.
Print Assumptions uniform_continuous_moments.

(** The distribution function is the integral of the density from below the
    support; the quantile inverts it; the median halves the mass; the mode is a
    point of maximal density. *)
Theorem uniform_continuous_cdf : forall a b u, uniform_new a b Continuous = Ret u -> a < b ->
  (forall c x, c <= a -> c <= x -> exists F, uniform_cdf u x = Some F /\ 0 <= F <= 1 /\ is_RInt (fun y => oval (uniform_pdf u y)) c x F) /\
  (forall p, 0 <= p <= 1 -> exists q, uniform_inv_cdf u p = Ret q /\ a <= q <= b /\ uniform_cdf u q = Some p) /\
  (forall x, a <= x <= b -> exists p, uniform_cdf u x = Some p /\ uniform_inv_cdf u p = Ret x) /\
  uniform_cdf u (uniform_median u) = Some (1 / 2) /\
  exists M, uniform_mode u = Ret M /\ forall x, oval (uniform_pdf u x) <= oval (uniform_pdf u M).
Proof.
  intros a b u Hu H. destruct (uniform_cont a b u Hu) as [-> _]. clear Hu.
  assert (CI : forall x, a <= x <= b -> uniform_cdf {| ua := a; ub := b; uclass := Continuous |} x = Some ((x - a) / (b - a))).
  { intros x Hx. unfold uniform_cdf. cbn [ua ub uclass]. destruct (Rltb_spec x a); [lra|]. destruct (Rleb_spec a x); [|lra]. destruct (Rleb_spec x b); [|lra]. cbn [andb].
    unfold fdiv. destruct (Reqb_spec (b - a) 0); [lra|reflexivity]. }
  assert (BD : forall x, a <= x <= b -> 0 <= (x - a) / (b - a) <= 1).
  { intros x Hx. split; [apply Rmult_le_pos; [lra|left; apply Rinv_0_lt_compat; lra]|]. apply Rmult_le_reg_r with (b - a); [lra|]. unfold Rdiv. rewrite Rmult_assoc, Rinv_l by lra. lra. }
  assert (IZ : forall c d, c <= d -> (d <= a \/ b <= c) -> is_RInt (fun y => oval (uniform_pdf {| ua := a; ub := b; uclass := Continuous |} y)) c d 0).
  { intros c d L O. apply (is_RInt_ext (V:=R_NormedModule) (fun _ => 0)); [intros x; rewrite Rmin_left, Rmax_right by lra; intros Hx; rewrite cpdf_out by lra; reflexivity|].
    apply iconst. ring. }
  assert (II : forall d, a <= d <= b -> is_RInt (fun y => oval (uniform_pdf {| ua := a; ub := b; uclass := Continuous |} y)) a d ((d - a) / (b - a))).
  { intros d L. apply (is_RInt_ext (V:=R_NormedModule) (fun _ => 1 / (b - a))); [intros x; rewrite Rmin_left, Rmax_right by lra; intros Hx; rewrite cpdf by lra; reflexivity|].
    apply iconst. field. lra. }
  split; [|split; [|split; [|split]]].
  - intros c x Hc Hx. destruct (Rlt_dec x a) as [L|L].
    + exists 0. split; [unfold uniform_cdf; cbn [ua]; destruct (Rltb_spec x a); [reflexivity|lra]|]. split; [lra|apply IZ; lra].
    + destruct (Rle_dec x b) as [L2|L2].
      * exists ((x - a) / (b - a)). split; [apply CI; lra|]. split; [apply BD; lra|].
        replace ((x - a) / (b - a)) with (plus 0 ((x - a) / (b - a))) by (unfold plus; simpl; ring).
        apply (is_RInt_Chasles (V:=R_NormedModule)) with a; [apply IZ; lra|apply II; lra].
      * exists 1. split; [unfold uniform_cdf; cbn [ua ub]; destruct (Rltb_spec x a); [lra|]; destruct (Rleb_spec a x); [|lra]; destruct (Rleb_spec x b); [lra|]; reflexivity|]. split; [lra|].
        replace 1 with (plus 0 (plus ((b - a) / (b - a)) 0)) by (unfold plus; simpl; field; lra).
        apply (is_RInt_Chasles (V:=R_NormedModule)) with a; [apply IZ; lra|]. apply (is_RInt_Chasles (V:=R_NormedModule)) with b; [apply II; lra|apply IZ; lra].
  - intros p Hp. exists (a + p * (b - a)). unfold uniform_inv_cdf, unit_interval. cbn [uclass ua ub]. destruct (Rleb_spec 0 p); [|lra]. destruct (Rleb_spec p 1); [|lra]. cbn [andb].
    split; [reflexivity|]. assert (Q : a <= a + p * (b - a) <= b) by nra. split; [exact Q|]. rewrite CI by exact Q. f_equal. field. lra.
  - intros x Hx. exists ((x - a) / (b - a)). split; [apply CI, Hx|]. unfold uniform_inv_cdf, unit_interval. cbn [uclass ua ub]. pose proof (BD x Hx).
    destruct (Rleb_spec 0 ((x - a) / (b - a))); [|lra]. destruct (Rleb_spec ((x - a) / (b - a)) 1); [|lra]. cbn [andb]. f_equal. field. lra.
  - unfold uniform_median. cbn [ua ub]. rewrite CI by lra. f_equal. field. lra.
  - exists ((a + b) * (1 / 2)). split; [reflexivity|]. intros x. rewrite (cpdf a b ((a + b) * (1 / 2))) by lra. cbn [oval].
    assert (0 < 1 / (b - a)) by (apply Rdiv_lt_0_compat; lra).
    destruct (Rlt_dec x a); [rewrite cpdf_out by lra; cbn [oval]; lra|]. destruct (Rlt_dec b x); [rewrite cpdf_out by lra; cbn [oval]; lra|]. rewrite cpdf by lra. cbn [oval]. lra.
Qed.
Print Assumptions uniform_continuous_cdf.
(** Findings: the mgf at 0 is NaN; a degenerate interval is accepted although its
    density and distribution function are not finite there. *)
Theorem uniform_continuous_edges_refuted :
  (forall a b u, uniform_new a b Continuous = Ret u -> uniform_mgf u 0 = None) /\
  (forall a, exists u, uniform_new a a Continuous = Ret u /\ uniform_pdf u a = None /\ uniform_cdf u a = None).
Proof.
  split.
  - intros a b u Hu. destruct (uniform_cont a b u Hu) as [-> _]. unfold uniform_mgf. cbn [uclass ua ub]. rewrite Rmult_0_l. unfold fdiv. destruct (Reqb_spec (0 * (b - a)) 0); [reflexivity|lra].
  - intros a. unfold uniform_new. destruct (Rleb_spec a a); [|lra]. eexists. split; [reflexivity|]. unfold uniform_pdf, uniform_cdf, uwidth. cbn [ua ub uclass].
    destruct (Rltb_spec a a); [lra|]. destruct (Rleb_spec a a); [|lra]. cbn [andb]. unfold fdiv. destruct (Reqb_spec (a - a) 0); [auto|lra].
Qed.
Print Assumptions uniform_continuous_edges_refuted.
Example uniform_continuous_case : exists u, uniform_new (-1) 2 Continuous = Ret u.
Proof. unfold uniform_new. destruct (Rleb_spec (-1) 2); [|lra]. eexists. reflexivity. Qed.

(** ** Exponential *)
Definition rval (r : res R) : R := match r with Ret v => v | _ => 0 end.
(** the expectation of f exists and is v *)
Definition expo_E (l : R) (f : R -> R) (v : R) : Prop :=
  is_RInt_gen (fun x => rval (exponential_pdf l x) * f x) (at_point 0) (Rbar_locally p_infty) v.
Lemma expo_pdf l x : 0 <= x -> exponential_pdf l x = Ret (l * exp (- l * x)).
Proof. intros H. unfold exponential_pdf. destruct (Rleb_spec 0 x); [reflexivity|lra]. Qed.
Lemma expo_ext l f g v : (forall x, 0 < x -> f x = g x) -> expo_E l f v -> expo_E l g v.
Proof. intros H. refine (igen_ext_from _ _ 0 v _). intros x Hx. cbv beta. rewrite H by exact Hx. reflexivity. Qed.
Lemma expo_lin l f g a b u v : expo_E l f u -> expo_E l g v -> expo_E l (fun x => a * f x + b * g x) (a * u + b * v).
Proof. intros A B. refine (igen_ext _ _ _ _ _ _ (igen_lin _ _ _ _ a b _ _ A B)). intros x. cbv beta. ring. Qed.
Lemma lim_scaled l k : 0 < l -> is_lim (fun x => pois_F (l * x) k) p_infty 0.
Proof.
  intros Hl. apply (is_lim_comp (fun y => pois_F y k) (fun x => l * x) p_infty 0 p_infty); [apply pois_F_lim| |].
  - replace p_infty with (Rbar_mult l p_infty) at 2. { apply is_lim_scal_l, is_lim_id. } simpl. destruct (Rle_dec 0 l); [destruct (Rle_lt_or_eq_dec 0 l r); [reflexivity|lra]|lra].
  - exists 0. discriminate.
Qed.
(** integral of x^k exp(-c x) *)
Lemma gamma_moment c k : 0 < c -> is_RInt_gen (fun x => x ^ k * exp (- c * x)) (at_point 0) (Rbar_locally p_infty) (INR (fact k) / c ^ S k).
Proof.
  intros Hc. assert (P : 0 < c ^ S k) by (apply pow_lt, Hc).
  replace (INR (fact k) / c ^ S k) with (0 - (- (INR (fact k) / c ^ S k)) * pois_F (c * 0) k) by (rewrite Rmult_0_r, pois_F_0; ring).
  apply (igen_from (fun x => - (INR (fact k) / c ^ S k) * pois_F (c * x) k)).
  - intros x _. replace (x ^ k * exp (- c * x)) with (- (INR (fact k) / c ^ S k) * (c * - ((c * x) ^ k * exp (- (c * x)) / INR (fact k)))).
    + apply (is_derive_scal (fun x => pois_F (c * x) k)). apply (is_derive_comp (fun y => pois_F y k) (fun x => c * x)); [apply pois_F_derive|]. auto_derive; [exact I|fld].
    + replace (- (c * x)) with (- c * x) by ring. rewrite Rpow_mult_distr. simpl pow. field. split; [apply INR_fact_neq_0|]. split; [apply pow_nonzero; lra|lra].
  - cont.
  - replace (Finite 0) with (Rbar_mult (- (INR (fact k) / c ^ S k)) 0) by (simpl; f_equal; ring). apply is_lim_scal_l, lim_scaled, Hc.
Qed.
Lemma expo_raw l k : 0 < l -> expo_E l (fun x => x ^ k) (INR (fact k) / l ^ k).
Proof.
  intros Hl. refine (igen_ext_from (fun x => l * (x ^ k * exp (- l * x))) _ 0 _ _ _). { intros x Hx. rewrite expo_pdf by lra. cbn [rval]. ring. }
  replace (INR (fact k) / l ^ k) with (l * (INR (fact k) / l ^ S k)) by (simpl; field; split; [apply pow_nonzero; lra|lra]). apply (igen_scal (at_point 0) (Rbar_locally p_infty)), gamma_moment, Hl.
Qed.
Lemma osc_lim l t A B : 0 < l -> is_lim (fun x => exp (- l * x) * (A * sin (t * x) + B * cos (t * x))) p_infty 0.
Proof.
  intros Hl. apply (is_lim_le_le_loc (fun x => - ((Rabs A + Rabs B) * exp (- l * x))) (fun x => (Rabs A + Rabs B) * exp (- l * x))).
  - exists 0. intros x _. pose proof (exp_pos (- l * x)) as E. apply Rabs_le_between. rewrite Rabs_mult, (Rabs_right (exp _)) by lra. rewrite Rmult_comm. apply Rmult_le_compat_r; [lra|].
    eapply Rle_trans; [apply Rabs_triang|]. rewrite !Rabs_mult. pose proof (Rabs_pos A). pose proof (Rabs_pos B).
    assert (Rabs (sin (t * x)) <= 1) by (apply Rabs_le, SIN_bound). assert (Rabs (cos (t * x)) <= 1) by (apply Rabs_le, COS_bound). pose proof (Rabs_pos (sin (t * x))). pose proof (Rabs_pos (cos (t * x))). nra.
  - replace (Finite 0) with (Rbar_opp (Rbar_mult (Rabs A + Rabs B) 0)) by (simpl; f_equal; ring). apply is_lim_opp, is_lim_scal_l.
    apply (is_lim_ext (fun x => pois_F (l * x) 0)); [|apply lim_scaled, Hl]. intros x. unfold pois_F, pois. simpl. replace (- (l * x)) with (- l * x) by ring. field.
  - replace (Finite 0) with (Rbar_mult (Rabs A + Rabs B) 0) by (simpl; f_equal; ring). apply is_lim_scal_l.
    apply (is_lim_ext (fun x => pois_F (l * x) 0)); [|apply lim_scaled, Hl]. intros x. unfold pois_F, pois. simpl. replace (- (l * x)) with (- l * x) by ring. field.
Qed.

Lemma expo_cf_val l t : 0 < l -> exponential_cf l t = (l ^ 2 / (l ^ 2 + t ^ 2), l * t / (l ^ 2 + t ^ 2)).
Proof.
  intros Hl. assert (D : 0 < l ^ 2 + t ^ 2) by (pose proof (pow2_ge_0 t); pose proof (pow_lt l 2 Hl); lra).
  unfold exponential_cf. assert (E : Cminus (RtoC 1) (Cdiv (it t) (RtoC l)) = (1, - (t / l))).
  { apply ceq; unfold Cdiv, Cinv, Cmult, Cminus, Cplus, Copp, RtoC, it; cbn [fst snd]; field; lra. }
  rewrite E. assert (Q : 1 ^ 2 + (- (t / l)) ^ 2 = (l ^ 2 + t ^ 2) / l ^ 2) by (field; lra).
  unfold Cdiv, Cinv, Cmult, RtoC; cbn [fst snd]. rewrite Q. apply ceq; cbn [fst snd]. - field; lra. - field; lra.
Qed.

(** Mass, mean, variance, skewness, kurtosis, entropy, mgf and cf of the
    exponential distribution are those of its density. *)
Theorem exponential_moments : forall l, exponential_new l = Ret l ->
  let m := exponential_mean l in
  expo_E l (fun _ => 1) 1 /\ expo_E l (fun x => x) m /\ expo_E l (fun x => (x - m) ^ 2) (exponential_variance l) /\
  expo_E l (fun x => (x - m) ^ 3) (exponential_skewness l * sqrt (exponential_variance l) ^ 3) /\
  expo_E l (fun x => (x - m) ^ 4) ((exponential_kurtosis l + 3) * exponential_variance l ^ 2) /\
  expo_E l (fun x => - ln (rval (exponential_pdf l x))) (exponential_entropy l) /\
  (forall t, t < l -> exists M, exponential_mgf l t = Ret M /\ expo_E l (fun x => exp (t * x)) M) /\
  (forall t, expo_E l (fun x => cos (t * x)) (fst (exponential_cf l t)) /\ expo_E l (fun x => sin (t * x)) (snd (exponential_cf l t))).
Proof.
  intros l H. unfold exponential_new in H. destruct (Rltb_spec 0 l) as [Hl|]; [|discriminate]. clear H. cbv zeta.
  unfold exponential_mean, exponential_variance, exponential_skewness, exponential_kurtosis, exponential_entropy.
  pose proof (expo_raw l 0 Hl) as R0. pose proof (expo_raw l 1 Hl) as R1. pose proof (expo_raw l 2 Hl) as R2. pose proof (expo_raw l 3 Hl) as R3. pose proof (expo_raw l 4 Hl) as R4.
  replace (INR (fact 0) / l ^ 0) with 1 in R0 by (simpl; field). replace (INR (fact 1) / l ^ 1) with (/ l) in R1 by (simpl; field; lra).
  replace (INR (fact 2) / l ^ 2) with (2 * (/ l) ^ 2) in R2 by (simpl; field; lra). replace (INR (fact 3) / l ^ 3) with (6 * (/ l) ^ 3) in R3 by (simpl; field; lra).
  replace (INR (fact 4) / l ^ 4) with (24 * (/ l) ^ 4) in R4 by (simpl; field; lra).
  split; [eapply expo_ext; [|exact R0]; intros; simpl; ring|]. split; [eapply expo_ext; [|exact R1]; intros; simpl; ring|].
  split; [|split; [|split; [|split; [|split]]]].
  - replace ((/ l) ^ 2) with (1 * (2 * (/ l) ^ 2) + 1 * (- 2 * / l * / l + (/ l) ^ 2 * 1)) by ring.
    eapply expo_ext; [|apply (expo_lin l _ _ 1 1 _ _ R2 (expo_lin l _ _ (- 2 * / l) ((/ l) ^ 2) _ _ R1 R0))]. intros; cbv beta; ring.
  - replace (sqrt ((/ l) ^ 2)) with (/ l) by (symmetry; apply sqrt_pow2; left; apply Rinv_0_lt_compat, Hl).
    replace (2 * (/ l) ^ 3) with (1 * (1 * (6 * (/ l) ^ 3) + (- 3 * / l) * (2 * (/ l) ^ 2)) + 1 * (3 * (/ l) ^ 2 * / l + (- (/ l) ^ 3) * 1)) by ring.
    eapply expo_ext; [|apply (expo_lin l _ _ 1 1 _ _ (expo_lin l _ _ 1 (- 3 * / l) _ _ R3 R2) (expo_lin l _ _ (3 * (/ l) ^ 2) (- (/ l) ^ 3) _ _ R1 R0))]. intros; cbv beta; ring.
  - replace ((6 + 3) * ((/ l) ^ 2) ^ 2) with (1 * (24 * (/ l) ^ 4) + 1 * (1 * ((- 4 * / l) * (6 * (/ l) ^ 3) + (6 * (/ l) ^ 2) * (2 * (/ l) ^ 2)) + 1 * (- 4 * (/ l) ^ 3 * / l + ((/ l) ^ 4) * 1))) by ring.
    eapply expo_ext; [|apply (expo_lin l _ _ 1 1 _ _ R4 (expo_lin l _ _ 1 1 _ _ (expo_lin l _ _ (- 4 * / l) (6 * (/ l) ^ 2) _ _ R3 R2) (expo_lin l _ _ (- 4 * (/ l) ^ 3) ((/ l) ^ 4) _ _ R1 R0)))]. intros; cbv beta; ring.
  - replace (1 - ln l) with (l * / l + (- ln l) * 1) by (field; lra).
    eapply expo_ext; [|apply (expo_lin l _ _ l (- ln l) _ _ R1 R0)]. intros x Hx. cbv beta. rewrite expo_pdf by lra. cbn [rval]. rewrite ln_mult, ln_exp by (try apply exp_pos; lra). ring.
  - intros t Ht. unfold exponential_mgf. destruct (Rltb_spec t l); [|lra]. eexists. split; [reflexivity|].
    refine (igen_ext_from (fun x => l * (x ^ 0 * exp (- (l - t) * x))) _ 0 _ _ _). { intros x Hx. rewrite expo_pdf by lra. cbn [rval]. rewrite Rmult_assoc, <- exp_plus. simpl. rewrite Rmult_1_l. do 2 f_equal. ring. }
    replace (/ (l - t)) with (INR (fact 0) / (l - t) ^ 1) by (simpl; field; lra). apply (igen_scal (at_point 0) (Rbar_locally p_infty)), gamma_moment. lra.
  - intros t. assert (D : 0 < l ^ 2 + t ^ 2) by (pose proof (pow2_ge_0 t); pose proof (pow_lt l 2 Hl); lra).
    rewrite expo_cf_val by exact Hl. cbn [fst snd]. split.
    + refine (igen_ext_from (fun x => l * exp (- l * x) * cos (t * x)) _ 0 _ _ _). { intros x Hx. rewrite expo_pdf by lra. reflexivity. }
      replace (l ^ 2 / (l ^ 2 + t ^ 2)) with (0 - exp (- l * 0) * (l * t / (l ^ 2 + t ^ 2) * sin (t * 0) + - (l ^ 2 / (l ^ 2 + t ^ 2)) * cos (t * 0))) by (rewrite !Rmult_0_r, exp_0, sin_0, cos_0; ring).
      apply (igen_from (fun x => exp (- l * x) * (l * t / (l ^ 2 + t ^ 2) * sin (t * x) + - (l ^ 2 / (l ^ 2 + t ^ 2)) * cos (t * x)))); [|cont|apply osc_lim, Hl].
      intros x _. auto_derive; [exact I|fld; lra].
    + refine (igen_ext_from (fun x => l * exp (- l * x) * sin (t * x)) _ 0 _ _ _). { intros x Hx. rewrite expo_pdf by lra. reflexivity. }
      replace (l * t / (l ^ 2 + t ^ 2)) with (0 - exp (- l * 0) * (- (l ^ 2 / (l ^ 2 + t ^ 2)) * sin (t * 0) + - (l * t / (l ^ 2 + t ^ 2)) * cos (t * 0))) by (rewrite !Rmult_0_r, exp_0, sin_0, cos_0; ring).
      apply (igen_from (fun x => exp (- l * x) * (- (l ^ 2 / (l ^ 2 + t ^ 2)) * sin (t * x) + - (l * t / (l ^ 2 + t ^ 2)) * cos (t * x)))); [|cont|apply osc_lim, Hl].
      intros x _. auto_derive; [exact I|fld; lra].
Qed.
Print Assumptions exponential_moments.

(** The distribution function is the integral of the density; the quantile
    inverts it; the median halves the mass; the mode maximises the density. *)
Theorem exponential_cdf_quantile : forall l, exponential_new l = Ret l ->
  (forall x, 0 <= x -> exists F, exponential_cdf l x = Ret F /\ 0 <= F < 1 /\ is_RInt (fun y => rval (exponential_pdf l y)) 0 x F) /\
  (forall p, 0 <= p < 1 -> exists q, exponential_inv_cdf l p = Some q /\ 0 <= q /\ exponential_cdf l q = Ret p) /\
  (forall x, 0 <= x -> exists p, exponential_cdf l x = Ret p /\ exponential_inv_cdf l p = Some x) /\
  exponential_cdf l (exponential_median l) = Ret (1 / 2) /\
  forall x, 0 <= x -> rval (exponential_pdf l x) <= rval (exponential_pdf l (exponential_mode l)).
Proof.
  intros l H. unfold exponential_new in H. destruct (Rltb_spec 0 l) as [Hl|]; [|discriminate]. clear H.
  assert (C : forall x, 0 <= x -> exponential_cdf l x = Ret (1 - exp (- l * x))) by (intros x Hx; unfold exponential_cdf; destruct (Rleb_spec 0 x); [reflexivity|lra]).
  assert (B : forall x, 0 <= x -> 0 < exp (- l * x) <= 1). { intros x Hx. split; [apply exp_pos|]. rewrite <- exp_0. destruct (Req_dec x 0) as [->|]; [rewrite Rmult_0_r; lra|]. left. apply exp_increasing. nra. }
  split; [|split; [|split; [|split]]].
  - intros x Hx. eexists. split; [apply C, Hx|]. split; [pose proof (B x Hx); lra|].
    apply (is_RInt_ext (V:=R_NormedModule) (fun y => l * exp (- l * y))). { intros y. rewrite Rmin_left, Rmax_right by lra. intros Hy. rewrite expo_pdf by lra. reflexivity. }
    replace (1 - exp (- l * x)) with (minus (- exp (- l * x)) (- exp (- l * 0))) by (unfold minus, plus, opp; simpl; rewrite Rmult_0_r, exp_0; ring).
    apply (is_RInt_derive (V:=R_CompleteNormedModule) (fun y => - exp (- l * y)) (fun y => l * exp (- l * y))); [|cont]. intros y _. auto_derive; [exact I|fld].
  - intros p Hp. unfold exponential_inv_cdf. destruct (Rltb_spec p 1); [|lra]. eexists. split; [reflexivity|].
    assert (L : ln (1 - p) <= 0). { rewrite <- ln_1. destruct (Req_dec p 0) as [->|]; [rewrite Rminus_0_r; lra|]. left. apply ln_increasing; lra. }
    assert (Q : 0 <= - ln (1 - p) / l) by (apply Rmult_le_pos; [lra|left; apply Rinv_0_lt_compat, Hl]). split; [exact Q|]. rewrite C by exact Q. f_equal.
    replace (- l * (- ln (1 - p) / l)) with (ln (1 - p)) by (field; lra). rewrite exp_ln by lra. ring.
  - intros x Hx. eexists. split; [apply C, Hx|]. pose proof (B x Hx). unfold exponential_inv_cdf. destruct (Rltb_spec (1 - exp (- l * x)) 1); [|lra]. f_equal.
    replace (1 - (1 - exp (- l * x))) with (exp (- l * x)) by ring. rewrite ln_exp. field. lra.
  - unfold exponential_median. assert (L : 0 < ln 2) by (rewrite <- ln_1; apply ln_increasing; lra). assert (Q : 0 <= ln 2 / l) by (left; apply Rdiv_lt_0_compat; assumption).
    rewrite C by exact Q. f_equal. replace (- l * (ln 2 / l)) with (- ln 2) by (field; lra). rewrite exp_Ropp, exp_ln by lra. field.
  - intros x Hx. unfold exponential_mode. rewrite !expo_pdf by lra. cbn [rval]. pose proof (B x Hx). rewrite Rmult_0_r, exp_0. nra.
Qed.
Print Assumptions exponential_cdf_quantile.
(** Finding: density and distribution function panic on negative arguments instead
    of returning 0. *)
Theorem exponential_negative_refuted : forall l x, x < 0 -> exponential_pdf l x = Panic /\ exponential_cdf l x = Panic.
Proof. intros l x H. unfold exponential_pdf, exponential_cdf. destruct (Rleb_spec 0 x); [lra|auto]. Qed.
Print Assumptions exponential_negative_refuted.
Example exponential_case : exponential_new 3 = Ret 3.
Proof. unfold exponential_new. destruct (Rltb_spec 0 3); [reflexivity|lra]. Qed.
