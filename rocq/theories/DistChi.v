(** C51, sixth part: the chi-squared distribution. *)
From Coq Require Import Reals ZArith PeanoNat Bool Lra Lia.
From Coquelicot Require Import Coquelicot.
From Verif Require Import Res InterpModel InterpProofs MatLib StatModel SpecialFns RGen DistModel DistDisc DistPois DistCont DistGauss DistGamma.
Open Scope R_scope.

(** the expectation of f exists and is v *)
Definition chi_E (gamma : R -> R) (k : nat) (f : R -> R) (v : R) : Prop :=
  is_RInt_gen (fun x => rval (chi_pdf gamma k x) * f x) (at_right 0) (Rbar_locally p_infty) v.

Lemma chi_dom k x : 0 < x -> chi_domain k x = true.
Proof. intros H. unfold chi_domain. destruct (Nat.eqb k 1); [destruct (Rltb_spec 0 x)|destruct (Rleb_spec 0 x)]; try reflexivity; lra. Qed.
Lemma chi_k k : chi_new k = Ret k -> 1 <= INR k.
Proof. unfold chi_new. destruct (Nat.ltb_spec 0 k); [|discriminate]. intros _. apply (le_INR 1). lia. Qed.
Lemma chi_pdf_gamma gamma k x : 0 < x -> chi_pdf gamma k x = gamma_pdf gamma (INR k / 2) (1 / 2) x.
Proof.
  intros Hx. unfold chi_pdf, gamma_pdf. rewrite chi_dom by exact Hx. destruct (Rltb_spec 0 x); [|lra]. f_equal.
  replace (- (1 / 2) * x) with (- x / 2) by field. replace (Rpower (1 / 2) (INR k / 2)) with (/ Rpower 2 (INR k / 2)).
  - unfold Rdiv. rewrite Rinv_mult. ring.
  - rewrite <- Rpower_Ropp. unfold Rpower. f_equal. unfold Rdiv. rewrite Rmult_1_l, ln_Rinv by lra. ring.
Qed.
Lemma chi_cdf_gamma gamma gamma_li k x : 0 < x -> chi_cdf gamma gamma_li k x = gamma_cdf gamma gamma_li (INR k / 2) (1 / 2) x.
Proof. intros Hx. unfold chi_cdf, gamma_cdf. rewrite chi_dom by exact Hx. destruct (Rltb_spec 0 x); [|lra]. do 2 f_equal. f_equal. field. Qed.
Lemma gamma_ok a b : 0 < a -> 0 < b -> gamma_new a b = Ret (a, b).
Proof. intros. unfold gamma_new. destruct (Rltb_spec 0 a); [|lra]. destruct (Rltb_spec 0 b); [reflexivity|lra]. Qed.

(** Mass, mean, variance, skewness, kurtosis and mgf of the chi-squared
    distribution are those of its density; above two degrees of freedom the mode
    maximises the density. *)
Theorem chi_moments : forall gamma gamma_li k, gamma_fn_spec gamma gamma_li -> chi_new k = Ret k ->
  let m := chi_mean k in
  chi_E gamma k (fun _ => 1) 1 /\ chi_E gamma k (fun x => x) m /\ chi_E gamma k (fun x => (x - m) ^ 2) (chi_variance k) /\
  chi_E gamma k (fun x => (x - m) ^ 3) (chi_skewness k * sqrt (chi_variance k) ^ 3) /\
  chi_E gamma k (fun x => (x - m) ^ 4) ((chi_kurtosis k + 3) * chi_variance k ^ 2) /\
  (forall t, t < 1 / 2 -> exists M, chi_mgf k t = Ret M /\ chi_E gamma k (fun x => exp (t * x)) M) /\
  ((2 < k)%nat -> 0 < chi_mode k /\ forall x, 0 < x -> rval (chi_pdf gamma k x) <= rval (chi_pdf gamma k (chi_mode k))).
Proof.
  intros gamma gamma_li k SP H. pose proof (chi_k k H) as K. cbv zeta.
  assert (OK : gamma_new (INR k / 2) (1 / 2) = Ret (INR k / 2, 1 / 2)) by (apply gamma_ok; lra).
  pose proof (gamma_moments gamma gamma_li _ _ SP OK) as G. cbv zeta in G. pose proof (gamma_cdf_mode gamma gamma_li _ _ SP OK) as (_ & _ & GM).
  assert (T : forall f v, gam_E gamma (INR k / 2) (1 / 2) f v -> chi_E gamma k f v). { intros f v. refine (igen_ext_pos _ _ v _). intros x Hx. rewrite chi_pdf_gamma by exact Hx. reflexivity. }
  assert (E1 : gamma_mean (INR k / 2) (1 / 2) = chi_mean k) by (unfold gamma_mean, chi_mean; field).
  assert (E2 : gamma_variance (INR k / 2) (1 / 2) = chi_variance k) by (unfold gamma_variance, chi_variance; field).
  assert (E3 : gamma_skewness (INR k / 2) (1 / 2) = chi_skewness k).
  { unfold gamma_skewness, chi_skewness. replace (8 / INR k) with (2 ^ 2 / (INR k / 2)) by (field; lra). rewrite (sqrt_div_alt (2 ^ 2)) by lra. rewrite sqrt_pow2 by lra. reflexivity. }
  assert (E4 : gamma_kurtosis (INR k / 2) (1 / 2) = chi_kurtosis k) by (unfold gamma_kurtosis, chi_kurtosis; field; lra).
  rewrite E1, E2, E3, E4 in G. destruct G as (M0 & M1 & M2 & M3 & M4 & MG). repeat split; try (apply T; assumption).
  - intros t Ht. destruct (MG t Ht) as (M & EM & IM). exists M. split; [|apply T, IM]. rewrite <- EM. unfold chi_mgf, gamma_mgf. destruct (Rltb_spec t (1 / 2)); [|lra].
    do 2 f_equal; field.
  - unfold chi_mode. assert (K2 : 3 <= INR k) by (apply (le_INR 3) in H0; simpl in H0; lra). rewrite Rmax_right; lra.
  - intros x Hx. assert (K2 : 3 <= INR k) by (apply (le_INR 3) in H0; simpl in H0; lra). destruct (GM ltac:(lra)) as [P Q].
    assert (EM : gamma_mode (INR k / 2) (1 / 2) = chi_mode k). { unfold gamma_mode, chi_mode. destruct (Rleb_spec 1 (INR k / 2)); [|lra]. rewrite Rmax_right by lra. field. }
    rewrite EM in *. rewrite !chi_pdf_gamma by assumption. apply Q, Hx.
Qed.
Print Assumptions chi_moments.

Theorem chi_cdf_integral : forall gamma gamma_li k, gamma_fn_spec gamma gamma_li -> chi_new k = Ret k ->
  (forall x, 0 < x -> exists F, chi_cdf gamma gamma_li k x = Ret F /\ 0 < F < 1 /\ is_RInt_gen (fun y => rval (chi_pdf gamma k y)) (at_right 0) (at_point x) F) /\
  (forall x y, 0 < x < y -> rval (chi_cdf gamma gamma_li k x) < rval (chi_cdf gamma gamma_li k y)).
Proof.
  intros gamma gamma_li k SP H. pose proof (chi_k k H) as K.
  destruct (gamma_cdf_mode gamma gamma_li _ _ SP (gamma_ok (INR k / 2) (1 / 2) ltac:(lra) ltac:(lra))) as (A & B & _). split.
  - intros x Hx. destruct (A x Hx) as (F & E & BF & I & _). exists F. rewrite chi_cdf_gamma by exact Hx. repeat split; try assumption; try apply BF.
    refine (igen_ext_to _ _ x F Hx _ I). intros y Hy. rewrite chi_pdf_gamma by exact Hy. reflexivity.
  - intros x y Hxy. rewrite !chi_cdf_gamma by lra. apply B, Hxy.
Qed.
Print Assumptions chi_cdf_integral.

(** ** Quantile search *)
Section Search.
Variables (F : R -> R) (cdf : R -> res R) (p q : R) (z : bool).
(** [z] says whether the distribution function accepts 0 *)
Hypothesis CDF : forall x, 0 < x \/ (x = 0 /\ z = true) -> cdf x = Ret (F x).
Hypothesis INC : forall x y, 0 <= x < y -> F x < F y.
Hypothesis Hq : 0 < q.
Hypothesis Fq : F q = p.
Lemma search_ok : forall fuel x d j, x = INR j * d -> 0 < d -> (2 <= j)%nat \/ z = true -> Rabs (q - x) <= 2 * d -> d * (1 / 2) ^ fuel <= / 10 ^ 10 ->
  exists y, chi_search cdf (S fuel) p x d = Ret y /\ 0 <= y /\ Rabs (y - q) <= 2 / 10 ^ 10.
Proof.
  induction fuel as [|fuel IH]; intros x d j Ex Hd Hj HQ Hf.
  - cbn [chi_search]. rewrite pow_O, Rmult_1_r in Hf. destruct (Rltb_spec (/ 10 ^ 10) d) as [L|_]; [exfalso; lra|]. exists x. split; [reflexivity|]. split; [subst; apply Rmult_le_pos; [apply pos_INR|lra]|].
    rewrite <- Rabs_Ropp, Ropp_minus_distr. eapply Rle_trans; [exact HQ|]. unfold Rdiv. lra.
  - set (g := S fuel) in *. cbn [chi_search]. subst g. destruct (Rltb_spec (/ 10 ^ 10) d) as [L|L].
    + assert (X0 : 0 <= x) by (subst; apply Rmult_le_pos; [apply pos_INR|lra]). rewrite CDF.
      2:{ destruct Hj as [J|J]; [left; subst; apply Rmult_lt_0_compat; [apply lt_0_INR; lia|exact Hd]|]. destruct (Req_dec x 0); [right; auto|left; lra]. }
      cbn [bind]. destruct (Rltb_spec (F x) p) as [C|C].
      * assert (XQ : x < q). { destruct (Rle_dec q x) as [G|]; [|lra]. exfalso. destruct G as [G|G]; [pose proof (INC q x ltac:(lra)); lra|rewrite <- G in C; lra]. }
        apply (IH _ _ (2 * (j + 1))%nat); [rewrite mult_INR, plus_INR; simpl; subst; field|lra|left; lia|rewrite Rabs_right in HQ by lra; apply Rabs_le; lra|].
        change ((1 / 2) ^ S fuel) with (1 / 2 * (1 / 2) ^ fuel) in Hf. lra.
      * assert (XQ : q <= x). { destruct (Rle_dec q x) as [|G]; [assumption|]. exfalso. pose proof (INC x q ltac:(lra)). lra. }
        assert (J1 : (1 <= j)%nat). { destruct j as [|j]; [simpl in Ex; lra|lia]. }
        apply (IH _ _ (2 * (j - 1))%nat); [rewrite mult_INR, minus_INR by exact J1; simpl; subst; field|lra|destruct Hj; [left; lia|right; assumption]|rewrite Rabs_left1 in HQ by lra; apply Rabs_le; lra|].
        change ((1 / 2) ^ S fuel) with (1 / 2 * (1 / 2) ^ fuel) in Hf. lra.
    + exists x. split; [reflexivity|]. split; [subst; apply Rmult_le_pos; [apply pos_INR|lra]|]. rewrite <- Rabs_Ropp, Ropp_minus_distr. eapply Rle_trans; [exact HQ|]. unfold Rdiv. lra.
Qed.
End Search.
Lemma search_cap cdf p : forall fuel x d y B, 0 < d -> x + 2 * d <= B -> chi_search cdf fuel p x d = Ret y -> y < B.
Proof.
  induction fuel as [|fuel IH]; intros x d y B Hd HB E; [discriminate|]. cbn [chi_search] in E. destruct (Rltb_spec (/ 10 ^ 10) d).
  - destruct (cdf x) as [c| |]; try discriminate. cbn [bind] in E. apply (IH _ _ _ B) in E; [exact E|lra|]. destruct (Rltb_spec c p); lra.
  - assert (y = x) by congruence. subst. lra.
Qed.

Definition chiF (gamma : R -> R) (gamma_li : R -> R -> R) (k : nat) (x : R) : R := gamma_li (INR k / 2) (x / 2) / gamma (INR k / 2).
Lemma chi_F_facts gamma gamma_li k : gamma_fn_spec gamma gamma_li -> chi_new k = Ret k ->
  let F := chiF gamma gamma_li k in
  (forall x, 0 < x \/ (x = 0 /\ negb (Nat.eqb k 1) = true) -> chi_cdf gamma gamma_li k x = Ret (F x)) /\ (forall x y, 0 <= x < y -> F x < F y) /\ F 0 = 0.
Proof.
  intros SP H. pose proof (chi_k k H) as K. cbv zeta. unfold chiF. pose proof (gamma_pos gamma gamma_li SP (INR k / 2) ltac:(lra)) as GP. split; [|split].
  - intros x Hx. unfold chi_cdf. destruct Hx as [Hx|[-> Z]]; [rewrite chi_dom by exact Hx; reflexivity|]. unfold chi_domain. destruct (Nat.eqb k 1); [discriminate|]. destruct (Rleb_spec 0 0); [reflexivity|lra].
  - intros x y Hxy. unfold Rdiv. apply Rmult_lt_compat_r; [apply Rinv_0_lt_compat, GP|]. destruct (Req_dec x 0) as [->|].
    + rewrite Rmult_0_l. rewrite (proj2 (proj2 SP)). apply (li_pos gamma gamma_li SP); lra.
    + apply (li_inc gamma gamma_li SP); lra.
  - unfold Rdiv. rewrite Rmult_0_l, (proj2 (proj2 SP)). ring.
Qed.

(** If the true quantile q of p lies in (0, 3k/2] then the search ends within
    2e-10 of it (for one degree of freedom only when q > 1/2). *)
Theorem chi_quantile : forall gamma gamma_li k p q fuel, gamma_fn_spec gamma gamma_li -> chi_new k = Ret k -> p <= 1 ->
  0 < q <= 3 / 2 * INR k -> chi_cdf gamma gamma_li k q = Ret p -> (2 <= k)%nat \/ 1 / 2 < q -> INR k / 2 * (1 / 2) ^ fuel <= / 10 ^ 10 ->
  exists y, chi_inv_cdf gamma gamma_li (S fuel) k p = Ret y /\ 0 <= y /\ Rabs (y - q) <= 2 / 10 ^ 10.
Proof.
  intros gamma gamma_li k p q fuel SP H P1 Hq Eq Hk Hf. pose proof (chi_k k H) as K. destruct (chi_F_facts gamma gamma_li k SP H) as (C & I & Z). cbv zeta in C, I, Z. set (F := chiF gamma gamma_li k) in *. clearbody F.
  assert (FQ : F q = p) by (rewrite C in Eq by (left; lra); injection Eq as Eq'; exact Eq'). assert (P0 : 0 < p) by (rewrite <- FQ, <- Z; apply I; lra).
  unfold chi_inv_cdf, unit_interval. destruct (Rleb_spec 0 p); [|lra]. destruct (Rleb_spec p 1); [|lra]. cbn [andb].
  destruct (Nat.eq_dec k 1) as [->|N].
  - destruct Hk as [|Hk]; [lia|]. simpl INR in *. destruct fuel as [|fuel]; [exfalso; simpl in Hf; assert (/ 10 ^ 10 <= 1 / 4); [|simpl in *; lra]; simpl; apply Rle_trans with (/ 4); [apply Rinv_le_contravar; lra|lra]|].
    set (g := S fuel) in *. cbn [chi_search]. subst g. assert (T : / 10 ^ 10 < 1 / 2 * 1) by (apply Rlt_le_trans with (/ 2); [apply Rinv_lt_contravar; simpl; lra|lra]).
    destruct (Rltb_spec (/ 10 ^ 10) (1 / 2 * 1)); [|lra]. rewrite C by (left; lra). cbn [bind]. assert (L : F (1 / 2 * 1) < p) by (rewrite <- FQ; apply I; lra). destruct (Rltb_spec (F (1 / 2 * 1)) p); [|lra].
    refine (search_ok F _ p q false _ I ltac:(lra) FQ fuel _ _ 4 _ _ _ _ _).
    + intros x [Hx|[_ Q]]; [apply C; left; exact Hx|discriminate].
    + simpl; lra.
    + lra.
    + left; lia.
    + apply Rabs_le. lra.
    + change ((1 / 2) ^ S fuel) with (1 / 2 * (1 / 2) ^ fuel) in Hf. lra.
  - assert (NB : negb (Nat.eqb k 1) = true) by (destruct (Nat.eqb_spec k 1); [contradiction|reflexivity]).
    refine (search_ok F _ p q true _ I ltac:(lra) FQ fuel _ _ 1 _ _ _ _ _).
    + intros x [Hx|[Hx _]]; apply C; [left|right]; auto.
    + simpl; lra.
    + lra.
    + right; reflexivity.
    + apply Rabs_le. lra.
    + replace (1 / 2 * INR k) with (INR k / 2) by field. exact Hf.
Qed.
Print Assumptions chi_quantile.

(** Finding: no probability has a quantile of 3k/2 or more, so for every number of
    degrees of freedom some p < 1 gets an answer short of it by a fixed amount. *)
Theorem chi_quantile_capped_refuted : forall gamma gamma_li k, gamma_fn_spec gamma gamma_li -> chi_new k = Ret k ->
  exists p gap, 0 < p < 1 /\ 0 < gap /\ forall fuel y, 0 < y -> chi_inv_cdf gamma gamma_li fuel k p = Ret y -> rval (chi_cdf gamma gamma_li k y) <= p - gap.
Proof.
  intros gamma gamma_li k SP H. pose proof (chi_k k H) as K. destruct (chi_F_facts gamma gamma_li k SP H) as (C & I & Z). cbv zeta in C, I, Z. set (F := chiF gamma gamma_li k) in *. clearbody F.
  destruct (chi_cdf_integral gamma gamma_li k SP H) as (A & B). destruct (A (3 / 2 * INR k) ltac:(lra)) as (f & Ef & Bf & _).
  exists ((1 + f) / 2), ((1 - f) / 2). split; [lra|]. split; [lra|]. intros fuel y Hy E. unfold chi_inv_cdf in E. destruct (unit_interval ((1 + f) / 2)); [|discriminate].
  apply (search_cap _ _ _ _ _ _ (3 / 2 * INR k)) in E; [|lra|lra]. pose proof (B y (3 / 2 * INR k) ltac:(lra)) as L. rewrite Ef in L. cbn [rval] in L. lra.
Qed.
Print Assumptions chi_quantile_capped_refuted.
(** Finding: the quantile of 0 panics; with one degree of freedom so does that of
    every p up to cdf(1/2). *)
Theorem chi_quantile_panics_refuted : forall gamma gamma_li k fuel, gamma_fn_spec gamma gamma_li -> chi_new k = Ret k ->
  chi_inv_cdf gamma gamma_li (S (S (S fuel))) k 0 = Panic /\
  (k = 1%nat -> forall p, 0 <= p <= rval (chi_cdf gamma gamma_li k (1 / 2)) -> chi_inv_cdf gamma gamma_li (S (S (S fuel))) k p = Panic).
Proof.
  intros gamma gamma_li k fuel SP H. pose proof (chi_k k H) as K. destruct (chi_F_facts gamma gamma_li k SP H) as (C & I & Z). cbv zeta in C, I, Z. set (F := chiF gamma gamma_li k) in *. clearbody F.
  assert (T : / 10 ^ 10 < 1 / 8) by (apply Rlt_le_trans with (/ 8); [apply Rinv_lt_contravar; simpl; lra|lra]).
  assert (ONE : k = 1%nat -> forall p, 0 <= p <= 1 -> p <= F (1 / 2) -> chi_inv_cdf gamma gamma_li (S (S (S fuel))) k p = Panic).
  { intros E p P1 Hp. subst k. simpl INR in *. unfold chi_inv_cdf, unit_interval. destruct (Rleb_spec 0 p); [|lra]. destruct (Rleb_spec p 1); [|lra]. cbn [andb]. set (g := S (S fuel)). cbn [chi_search].
    simpl INR. destruct (Rltb_spec (/ 10 ^ 10) (1 / 2 * 1)); [|lra]. rewrite C by (left; lra). cbn [bind]. replace (1 / 2 * 1) with (1 / 2) by ring.
    destruct (Rltb_spec (F (1 / 2)) p); [lra|]. subst g. set (g := S fuel). cbn [chi_search]. destruct (Rltb_spec (/ 10 ^ 10) (1 / 2 * (1 / 2))); [|lra].
    unfold chi_cdf at 1, chi_domain. cbn [Nat.eqb]. destruct (Rltb_spec 0 (1 / 2 - 1 / 2)); [lra|]. reflexivity. }
  split.
  - destruct (Nat.eq_dec k 1) as [E|N]; [apply ONE; [exact E|lra|]; left; rewrite <- Z at 1; apply I; lra|].
    unfold chi_inv_cdf, unit_interval. destruct (Rleb_spec 0 0); [|lra]. destruct (Rleb_spec 0 1); [|lra]. cbn [andb]. set (g := S (S fuel)). cbn [chi_search].
    destruct (Rltb_spec (/ 10 ^ 10) (1 / 2 * INR k)); [|lra]. rewrite C by (left; lra). cbn [bind]. assert (L : 0 < F (1 / 2 * INR k)) by (rewrite <- Z; apply I; lra).
    destruct (Rltb_spec (F (1 / 2 * INR k)) 0); [lra|]. subst g. set (g := S fuel). cbn [chi_search]. destruct (Rltb_spec (/ 10 ^ 10) (1 / 2 * INR k * (1 / 2))); [|lra].
    replace (1 / 2 * INR k - 1 / 2 * INR k) with 0 by ring. rewrite C by (right; split; [reflexivity|destruct (Nat.eqb_spec k 1); [contradiction|reflexivity]]). cbn [bind]. rewrite Z.
    destruct (Rltb_spec 0 0); [lra|]. subst g. cbn [chi_search]. destruct (Rltb_spec (/ 10 ^ 10) (1 / 2 * INR k * (1 / 2) * (1 / 2))); [|lra].
    unfold chi_cdf at 1, chi_domain. destruct (Nat.eqb_spec k 1); [contradiction|]. destruct (Rleb_spec 0 (0 - 1 / 2 * INR k * (1 / 2))); [lra|]. reflexivity.
  - intros E p Hp. destruct (chi_cdf_integral gamma gamma_li k SP H) as (A & _). destruct (A (1 / 2) ltac:(lra)) as (f & Ef & Bf & _). rewrite Ef in Hp. cbn [rval] in Hp.
    rewrite C in Ef by (left; lra). assert (f = F (1 / 2)) by (injection Ef as Ef'; symmetry; exact Ef'). apply ONE; [exact E|lra|lra].
Qed.
Print Assumptions chi_quantile_panics_refuted.

(** Finding: the median is an approximation; with two degrees of freedom the mass
    below it is more than one half. *)
Theorem chi_median_refuted : forall gamma gamma_li, gamma_fn_spec gamma gamma_li ->
  exists F, chi_cdf gamma gamma_li 2 (chi_median 2) = Ret F /\ 1 / 2 < F.
Proof.
  intros gamma gamma_li SP. assert (Em : chi_median 2 = 1024 / 729) by (unfold chi_median; simpl; field). rewrite Em.
  unfold chi_cdf. rewrite chi_dom by lra. eexists. split; [reflexivity|]. replace (INR 2 / 2) with 1 by (simpl; field).
  assert (G : forall t, 0 < t -> exp (- t) = gk 1 t) by (intros t Ht; unfold gk; replace (1 - 1) with 0 by ring; rewrite Rpower_O by exact Ht; ring).
  assert (L0 : filterlim (fun t => - exp (- t)) (at_right 0) (locally (-1))).
  { replace (-1) with (- exp (- 0)) by (rewrite Ropp_0, exp_0; ring). assert (CT : continuous (fun t => - exp (- t)) 0) by cont.
    intros P HP. destruct (CT P HP) as [e He]. exists e. intros y By _. apply He, By. }
  assert (DV : forall x, is_derive (fun t => - exp (- t)) x (exp (- x))) by (intros x; auto_derive; [exact I|]; match goal with |- ?u = ?v => change (@eq R u v) end; ring).
  assert (CN : forall x, continuous (fun t => exp (- t)) x) by cont.
  assert (G1 : gamma 1 = 0 - -1).
  { apply (igen_unique (at_right 0) (Rbar_locally p_infty) (gk 1)); [apply (proj1 SP); lra|]. refine (igen_ext_pos _ _ _ G _).
    refine (igen_pos (fun t => - exp (- t)) (fun t => exp (- t)) (-1) 0 (fun x _ => DV x) (fun x _ => CN x) L0 _).
    replace (Finite 0) with (Rbar_opp 0) by (simpl; f_equal; ring). apply is_lim_opp. apply (is_lim_ext (fun x => pois_F x 0)); [|apply pois_F_lim]. intros x. unfold pois_F, pois. simpl. field. }
  assert (L1 : gamma_li 1 (1024 / 729 / 2) = - exp (- (1024 / 729 / 2)) - -1).
  { apply (igen_unique (at_right 0) (at_point (1024 / 729 / 2)) (gk 1)); [apply (proj1 (proj2 SP)); lra|]. refine (igen_ext_to (fun t => exp (- t)) (gk 1) (1024 / 729 / 2) _ ltac:(lra) G _).
    refine (igen (at_right 0) (at_point (1024 / 729 / 2)) (fun t => - exp (- t)) (fun t => exp (- t)) (fun _ => True) (-1) (- exp (- (1024 / 729 / 2))) (fun x _ => DV x) (fun x _ => CN x) _ L0 _).
    - apply Filter_prod with (fun _ => True) (fun _ => True); try apply filter_true. intros; exact Logic.I.
    - intros P [e He]. unfold filtermap, at_point. apply He. apply ball_center. }
  rewrite G1, L1. assert (B : exp (- (1024 / 729 / 2)) < 1 / 2).
  { rewrite exp_Ropp. apply Rlt_le_trans with (/ 2); [|lra]. apply Rinv_lt_contravar; [pose proof (exp_pos (1024 / 729 / 2)); lra|].
    replace (1024 / 729 / 2) with (512 / 729 / 2 + 512 / 729 / 2) by field. rewrite exp_plus. assert (E : 1 + 512 / 729 / 2 + (512 / 729 / 2) ^ 2 / 2 + (512 / 729 / 2) ^ 3 / 6 <= exp (512 / 729 / 2)).
    { pose proof (partial_le _ _ 3 (fun j => Rmult_le_pos _ _ (Rlt_le _ _ (Rinv_0_lt_compat _ (INR_fact_lt_0 j))) (pow_le (512 / 729 / 2) j ltac:(lra))) (exp_series (512 / 729 / 2))) as T. simpl in T. lra. }
    assert (W : 2 < (1 + 512 / 729 / 2 + (512 / 729 / 2) ^ 2 / 2 + (512 / 729 / 2) ^ 3 / 6) * (1 + 512 / 729 / 2 + (512 / 729 / 2) ^ 2 / 2 + (512 / 729 / 2) ^ 3 / 6)) by lra. nra. }
  unfold Rdiv. lra.
Qed.
Print Assumptions chi_median_refuted.
Example chi_case : exists gamma gamma_li, gamma_fn_spec gamma gamma_li /\ chi_new 4 = Ret 4%nat /\
  exists p, chi_cdf gamma gamma_li 4 3 = Ret p /\ 0 < p < 1 /\ 0 < 3 <= 3 / 2 * INR 4.
Proof.
  destruct gamma_fn_exists as (g & gl & SP). exists g, gl. split; [exact SP|]. split; [reflexivity|].
  destruct (chi_cdf_integral g gl 4 SP eq_refl) as (A & _). destruct (A 3 ltac:(lra)) as (p & E & B & _). exists p. split; [exact E|]. split; [exact B|simpl; lra].
Qed.
