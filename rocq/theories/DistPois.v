(** C51, second part: Poisson and discrete uniform distributions. *)
From Coq Require Import Reals ZArith PeanoNat Bool Lra Lia.
From Coquelicot Require Import Coquelicot.
From Verif Require Import Res InterpModel InterpProofs MatLib StatModel SpecialFns RGen DistModel DistDisc.
Open Scope R_scope.

(** ** Poisson *)
Definition pois (l : R) (k : nat) : R := l ^ k * exp (- l) / INR (fact k).
(** the expectation of f exists and is v *)
Definition pois_E (l : R) (f : R -> R) (v : R) : Prop := is_series (fun k => pois l k * f (INR k)) v.
Definition pois_F (l : R) (k : nat) : R := bs (S k) (pois l).

Lemma f20 : (zfact 20 < usize_bound)%Z. Proof. reflexivity. Qed.
Lemma f21 : (usize_bound <= zfact 21)%Z. Proof. unfold Z.le. vm_compute. discriminate. Qed.

(** Up to twenty the mass function is the textbook one ... *)
Theorem poisson_pmf_exact : forall l k, (k <= 20)%nat -> poisson_pmf l (INR k) = Ret (pois l k).
Proof.
  intros l k Hk. unfold poisson_pmf. rewrite as_usize_INR, tz_INR, (checked_ok usize_bound 20 k f20 Hk). cbn [bind]. unfold powi, pois.
  rewrite <- pow_powerRZ. reflexivity.
Qed.
Print Assumptions poisson_pmf_exact.
(** ... Finding: from 21 on every call overflows, and negative integers get
    positive probability. *)
Theorem poisson_pmf_overflow_refuted : forall l k, (21 <= k)%nat -> poisson_pmf l (INR k) = Panic.
Proof. intros l k Hk. unfold poisson_pmf. rewrite as_usize_INR, (checked_over usize_bound 21 k f21 Hk). reflexivity. Qed.
Print Assumptions poisson_pmf_overflow_refuted.
Theorem poisson_pmf_negative_refuted : forall l j, 0 < l -> exists v, poisson_pmf l (- INR (S j)) = Ret v /\ 0 < v.
Proof.
  intros l j Hl. unfold poisson_pmf. assert (P : 0 < INR (S j)) by (apply lt_0_INR; lia).
  assert (T : tz (- INR (S j)) = (- Z.of_nat (S j))%Z).
  { unfold tz. destruct (Rleb_spec 0 (- INR (S j))); [lra|]. rewrite Ropp_involutive, Int_part_INR. reflexivity. }
  unfold as_usize. rewrite T. rewrite Z2Nat.inj_neg || replace (Z.to_nat (- Z.of_nat (S j))) with 0%nat by lia.
  rewrite (checked_ok usize_bound 20 0 f20) by lia. cbn [bind]. eexists. split; [reflexivity|].
  simpl (fact 0). simpl (INR 1). unfold Rdiv. rewrite Rinv_1, Rmult_1_r. apply Rmult_lt_0_compat; [apply powerRZ_lt, Hl|apply exp_pos].
Qed.
Print Assumptions poisson_pmf_negative_refuted.

Lemma pois_S l k : pois l (S k) * INR (S k) = l * pois l k.
Proof.
  unfold pois. replace (fact (S k)) with (S k * fact k)%nat by reflexivity. rewrite mult_INR. simpl pow. field.
  split; [apply INR_fact_neq_0|apply not_0_INR; lia].
Qed.
Lemma pois_pos l k : 0 < l -> 0 < pois l k.
Proof. intros H. unfold pois. apply Rmult_lt_0_compat; [apply Rmult_lt_0_compat; [apply pow_lt, H|apply exp_pos]|apply Rinv_0_lt_compat, INR_fact_lt_0]. Qed.
(** series of reals without the module structure in the statements *)
Lemma rs_ext (a b : nat -> R) (u v : R) : (forall k, a k = b k) -> u = v -> is_series a u -> is_series b v.
Proof. intros H -> A. eapply is_series_ext; [|exact A]. exact H. Qed.
Lemma rs_scal (c : R) (a : nat -> R) (v : R) : is_series a v -> is_series (fun k => c * a k) (c * v).
Proof. intros A. exact (is_series_scal (K:=R_AbsRing) (V:=R_NormedModule) c a v A). Qed.
Lemma rs_plus (a b : nat -> R) (u v : R) : is_series a u -> is_series b v -> is_series (fun k => a k + b k) (u + v).
Proof. intros A B. exact (is_series_plus (K:=R_AbsRing) (V:=R_NormedModule) a b u v A B). Qed.
Lemma rs_decr (a : nat -> R) (v : R) : a O = 0 -> is_series (fun k => a (S k)) v -> is_series a v.
Proof.
  intros Z A. apply (is_series_decr_1 (K:=R_AbsRing) (V:=R_NormedModule)). rewrite Z.
  assert (E : @eq R (@Hierarchy.plus (NormedModule.AbelianGroup R_AbsRing R_NormedModule) v (@Hierarchy.opp (NormedModule.AbelianGroup R_AbsRing R_NormedModule) 0)) v).
  { change (v + - 0 = v). ring. }
  rewrite E. exact A.
Qed.
Lemma exp_series x : is_series (fun k => / INR (fact k) * x ^ k) (exp x).
Proof. apply is_pseries_R. apply is_exp_Reals. Qed.
Lemma pE_mass l : pois_E l (fun _ => 1) 1.
Proof.
  eapply rs_ext; [| |apply (rs_scal (exp (- l)) _ _ (exp_series l))]; cbv beta.
  - intros k. unfold pois, Rdiv. ring.
  - rewrite <- exp_plus. replace (- l + l) with 0 by ring. apply exp_0.
Qed.
Lemma pE_shift l g v : pois_E l (fun x => g (x + 1)) v -> pois_E l (fun x => x * g x) (l * v).
Proof.
  intros H. apply rs_decr; [simpl; ring|]. eapply rs_ext; [|reflexivity|apply (rs_scal l _ _ H)]. intros k. cbv beta.
  rewrite <- S_INR, <- !Rmult_assoc, pois_S. reflexivity.
Qed.
Lemma pE_lin l a b f g u v : pois_E l f u -> pois_E l g v -> pois_E l (fun x => a * f x + b * g x) (a * u + b * v).
Proof. intros A B. eapply rs_ext; [|reflexivity|apply (rs_plus _ _ _ _ (rs_scal a _ _ A) (rs_scal b _ _ B))]. intros k. cbv beta. ring. Qed.
Lemma pE_ext l f g u v : (forall x, f x = g x) -> u = v -> pois_E l f u -> pois_E l g v.
Proof. intros H E A. eapply rs_ext; [|exact E|exact A]. intros k. cbv beta. rewrite H. reflexivity. Qed.
Lemma pE_1 l : pois_E l (fun x => x) l.
Proof. eapply pE_ext; [| |apply (pE_shift l (fun _ => 1) 1), pE_mass]; intros; cbv beta; ring. Qed.
Lemma pE_2 l : pois_E l (fun x => x ^ 2) (l + l ^ 2).
Proof.
  eapply pE_ext; [| |apply (pE_shift l (fun x => x))]; [intros; cbv beta; ring| |].
  2:{ eapply pE_ext; [| |apply (pE_lin l 1 1 _ _ _ _ (pE_1 l) (pE_mass l))]; intros; cbv beta; [ring|reflexivity]. }
  ring.
Qed.
Lemma pE_3 l : pois_E l (fun x => x ^ 3) (l + 3 * l ^ 2 + l ^ 3).
Proof.
  eapply pE_ext; [| |apply (pE_shift l (fun x => x ^ 2))]; [intros; cbv beta; ring| |].
  2:{ eapply pE_ext; [| |apply (pE_lin l 1 1 _ _ _ _ (pE_2 l) (pE_lin l 2 1 _ _ _ _ (pE_1 l) (pE_mass l)))]; intros; cbv beta; [ring|reflexivity]. }
  ring.
Qed.
Lemma pE_4 l : pois_E l (fun x => x ^ 4) (l + 7 * l ^ 2 + 6 * l ^ 3 + l ^ 4).
Proof.
  eapply pE_ext; [| |apply (pE_shift l (fun x => x ^ 3))]; [intros; cbv beta; ring| |].
  2:{ eapply pE_ext; [| |apply (pE_lin l 1 1 _ _ _ _ (pE_3 l) (pE_lin l 3 1 _ _ _ _ (pE_2 l) (pE_lin l 3 1 _ _ _ _ (pE_1 l) (pE_mass l))))]; intros; cbv beta; [ring|reflexivity]. }
  ring.
Qed.

(** ** Characteristic function: a pair of power series solved as an ODE *)
Definition ca (t : R) (k : nat) : R := cos (t * INR k) / INR (fact k).
Definition sa (t : R) (k : nat) : R := sin (t * INR k) / INR (fact k).
Lemma sum_bs (a : nat -> R) n : sum_n a n = bs (S n) a.
Proof.
  induction n as [|n IH]; [rewrite sum_O; simpl; ring|]. rewrite sum_Sn, IH. reflexivity.
Qed.
Lemma partial_le (a : nat -> R) v n : (forall k, 0 <= a k) -> is_series a v -> bs (S n) a <= v.
Proof.
  intros P S. rewrite <- sum_bs. apply (is_lim_seq_incr_compare (sum_n a) v); [exact S|].
  intros m. rewrite !sum_bs. cbn [bs]. pose proof (P (Datatypes.S m)). lra.
Qed.
Lemma term_le_exp r k : 0 <= r -> r ^ k / INR (fact k) <= exp r.
Proof.
  intros Hr. assert (P : forall j, 0 <= / INR (fact j) * r ^ j) by (intros j; apply Rmult_le_pos; [left; apply Rinv_0_lt_compat, INR_fact_lt_0|apply pow_le, Hr]).
  pose proof (partial_le _ _ k P (exp_series r)) as M. cbn [bs] in M. assert (0 <= bs k (fun j => / INR (fact j) * r ^ j)) by (apply bs_nonneg; intros; apply P).
  unfold Rdiv. lra.
Qed.
Lemma radius_inf (a : nat -> R) : (forall k, Rabs (a k) <= / INR (fact k)) -> forall x, Rbar_lt (Rabs x) (CV_radius a).
Proof.
  intros H x. destruct (CV_radius_bounded a) as [U _].
  assert (L : Rbar_le (Rabs x + 1) (CV_radius a)).
  { apply U. exists (exp (Rabs x + 1)). intros k. rewrite Rabs_mult. pose proof (Rabs_pos x). rewrite <- RPow_abs, (Rabs_right (Rabs x + 1)) by lra.
    eapply Rle_trans; [|apply (term_le_exp (Rabs x + 1) k); lra]. unfold Rdiv. rewrite (Rmult_comm ((Rabs x + 1) ^ k)).
    apply Rmult_le_compat_r; [apply pow_le; lra|apply H]. }
  eapply Rbar_lt_le_trans; [|exact L]. simpl. lra.
Qed.
Lemma ca_bound t k : Rabs (ca t k) <= / INR (fact k).
Proof.
  unfold ca, Rdiv. rewrite Rabs_mult. rewrite (Rabs_right (/ INR (fact k))) by (apply Rle_ge; left; apply Rinv_0_lt_compat, INR_fact_lt_0).
  rewrite <- (Rmult_1_l (/ INR (fact k))) at 2. apply Rmult_le_compat_r; [left; apply Rinv_0_lt_compat, INR_fact_lt_0|]. apply Rabs_le. apply COS_bound.
Qed.
Lemma sa_bound t k : Rabs (sa t k) <= / INR (fact k).
Proof.
  unfold sa, Rdiv. rewrite Rabs_mult. rewrite (Rabs_right (/ INR (fact k))) by (apply Rle_ge; left; apply Rinv_0_lt_compat, INR_fact_lt_0).
  rewrite <- (Rmult_1_l (/ INR (fact k))) at 2. apply Rmult_le_compat_r; [left; apply Rinv_0_lt_compat, INR_fact_lt_0|]. apply Rabs_le. apply SIN_bound.
Qed.
Lemma fact_S k : INR (fact (S k)) = INR (S k) * INR (fact k).
Proof. replace (fact (S k)) with (S k * fact k)%nat by reflexivity. apply mult_INR. Qed.
Lemma ca_ode t x : is_derive (PSeries (ca t)) x (cos t * PSeries (ca t) x - sin t * PSeries (sa t) x) /\
  is_derive (PSeries (sa t)) x (sin t * PSeries (ca t) x + cos t * PSeries (sa t) x).
Proof.
  assert (RA := radius_inf (ca t) (ca_bound t) x). assert (RB := radius_inf (sa t) (sa_bound t) x).
  assert (EA : ex_pseries (ca t) x) by (apply CV_radius_inside, RA). assert (EB : ex_pseries (sa t) x) by (apply CV_radius_inside, RB).
  assert (N : forall k, INR (fact k) <> 0) by apply INR_fact_neq_0. assert (NS : forall k, INR (S k) <> 0) by (intros; apply not_0_INR; lia).
  split.
  - replace (cos t * PSeries (ca t) x - sin t * PSeries (sa t) x) with (PSeries (PS_derive (ca t)) x); [apply is_derive_PSeries, RA|].
    rewrite (PSeries_ext (PS_derive (ca t)) (PS_minus (PS_scal (cos t) (ca t)) (PS_scal (sin t) (sa t)))).
    + rewrite PSeries_minus, !PSeries_scal; [reflexivity| |]; apply (ex_pseries_scal (K:=R_AbsRing) (V:=R_NormedModule)); try assumption; apply Rmult_comm.
    + intros k. unfold PS_derive, PS_minus, PS_plus, PS_opp, PS_scal, ca, sa. unfold plus, opp, scal; simpl. unfold mult; simpl.
      change (match k with O => 1 | S _ => INR k + 1 end) with (INR (S k)). change (fact k + k * fact k)%nat with (fact (S k)).
      rewrite fact_S. replace (t * INR (S k)) with (t * INR k + t) by (rewrite S_INR; ring). rewrite cos_plus. field. split; first [apply NS|apply N].
  - replace (sin t * PSeries (ca t) x + cos t * PSeries (sa t) x) with (PSeries (PS_derive (sa t)) x); [apply is_derive_PSeries, RB|].
    rewrite (PSeries_ext (PS_derive (sa t)) (PS_plus (PS_scal (sin t) (ca t)) (PS_scal (cos t) (sa t)))).
    + rewrite PSeries_plus, !PSeries_scal; [reflexivity| |]; apply (ex_pseries_scal (K:=R_AbsRing) (V:=R_NormedModule)); try assumption; apply Rmult_comm.
    + intros k. unfold PS_derive, PS_plus, PS_scal, ca, sa. unfold plus, scal; simpl. unfold mult; simpl.
      change (match k with O => 1 | S _ => INR k + 1 end) with (INR (S k)). change (fact k + k * fact k)%nat with (fact (S k)).
      rewrite fact_S. replace (t * INR (S k)) with (t * INR k + t) by (rewrite S_INR; ring). rewrite sin_plus. field. split; first [apply NS|apply N].
Qed.
Lemma const_fun (h : R -> R) : (forall x, is_derive h x 0) -> forall x, h x = h 0.
Proof.
  intros H x. destruct (MVT_gen h 0 x (fun _ => 0)) as (c & _ & E).
  - intros y _. apply H.
  - intros y _. apply continuity_pt_filterlim. apply (ex_derive_continuous h). exists 0. apply H.
  - lra.
Qed.
Lemma series_solution t x : PSeries (ca t) x = exp (x * cos t) * cos (x * sin t) /\ PSeries (sa t) x = exp (x * cos t) * sin (x * sin t).
Proof.
  set (A := PSeries (ca t)). set (B := PSeries (sa t)).
  assert (DA : forall y, is_derive A y (cos t * A y - sin t * B y)) by (intros y; apply (ca_ode t y)).
  assert (DB : forall y, is_derive B y (sin t * A y + cos t * B y)) by (intros y; apply (ca_ode t y)).
  assert (A0 : A 0 = 1). { unfold A. rewrite PSeries_0. unfold ca. simpl. rewrite Rmult_0_r, cos_0. field. }
  assert (B0 : B 0 = 0). { unfold B. rewrite PSeries_0. unfold sa. simpl. rewrite Rmult_0_r, sin_0. field. }
  clearbody A B.
  assert (H1 : forall y, exp (- (y * cos t)) * (A y * cos (y * sin t) + B y * sin (y * sin t)) = 1).
  { intros y. pose (h := fun y => exp (- (y * cos t)) * (A y * cos (y * sin t) + B y * sin (y * sin t))).
    change (h y = 1). rewrite (const_fun h).
    - unfold h. rewrite A0, B0, !Rmult_0_l, Ropp_0, exp_0, cos_0. ring.
    - intros z. unfold h. auto_derive; [split; [exists (cos t * A z - sin t * B z); apply DA|split; [exists (sin t * A z + cos t * B z); apply DB|exact I]]|].
      assert (EA : Derive (fun x => A x) z = cos t * A z - sin t * B z) by (apply is_derive_unique, DA).
      assert (EB : Derive (fun x => B x) z = sin t * A z + cos t * B z) by (apply is_derive_unique, DB). rewrite EA, EB. ring. }
  assert (H2 : forall y, exp (- (y * cos t)) * (B y * cos (y * sin t) - A y * sin (y * sin t)) = 0).
  { intros y. pose (h := fun y => exp (- (y * cos t)) * (B y * cos (y * sin t) - A y * sin (y * sin t))).
    change (h y = 0). rewrite (const_fun h).
    - unfold h. rewrite A0, B0, !Rmult_0_l, Ropp_0, exp_0, sin_0. ring.
    - intros z. unfold h. auto_derive; [split; [exists (sin t * A z + cos t * B z); apply DB|split; [exists (cos t * A z - sin t * B z); apply DA|exact I]]|].
      assert (EA : Derive (fun x => A x) z = cos t * A z - sin t * B z) by (apply is_derive_unique, DA).
      assert (EB : Derive (fun x => B x) z = sin t * A z + cos t * B z) by (apply is_derive_unique, DB). rewrite EA, EB. ring. }
  specialize (H1 x). specialize (H2 x). assert (E : exp (x * cos t) * exp (- (x * cos t)) = 1) by (rewrite <- exp_plus; replace (x * cos t + - (x * cos t)) with 0 by ring; apply exp_0).
  pose proof (sin2_cos2 (x * sin t)) as P. unfold Rsqr in P. set (s := sin (x * sin t)) in *. set (c := cos (x * sin t)) in *. set (e := exp (x * cos t)) in *. set (m := exp (- (x * cos t))) in *.
  assert (U : A x * c + B x * s = e). { transitivity ((e * m) * (A x * c + B x * s)); [rewrite E; ring|]. rewrite Rmult_assoc, H1. ring. }
  assert (V : B x * c - A x * s = 0). { transitivity ((e * m) * (B x * c - A x * s)); [rewrite E; ring|]. rewrite Rmult_assoc, H2. ring. }
  split.
  - transitivity (A x * (s * s + c * c)); [rewrite P; ring|]. transitivity ((A x * c + B x * s) * c - (B x * c - A x * s) * s); [ring|]. rewrite U, V. ring.
  - transitivity (B x * (s * s + c * c)); [rewrite P; ring|]. transitivity ((A x * c + B x * s) * s + (B x * c - A x * s) * c); [ring|]. rewrite U, V. ring.
Qed.
Lemma pois_series l (a : nat -> R) (f : R -> R) v : (forall k, Rabs (a k) <= / INR (fact k)) -> (forall k, a k = f (INR k) / INR (fact k)) ->
  PSeries a l = exp l * v -> pois_E l f v.
Proof.
  intros B F E. assert (S : is_pseries a l (PSeries a l)) by (apply PSeries_correct, CV_radius_inside, radius_inf, B).
  apply is_pseries_R in S. rewrite E in S. eapply rs_ext; [| |apply (rs_scal (exp (- l)) _ _ S)]; cbv beta.
  - intros k. rewrite F. unfold pois, Rdiv. ring.
  - rewrite <- Rmult_assoc, <- exp_plus. replace (- l + l) with 0 by ring. rewrite exp_0. ring.
Qed.

(** Total mass, mean, variance, moment generating and characteristic functions. *)
Theorem poisson_moments : forall l, poisson_new l = Ret l ->
  pois_E l (fun _ => 1) 1 /\
  pois_E l (fun x => x) (poisson_mean l) /\
  pois_E l (fun x => (x - poisson_mean l) ^ 2) (poisson_variance l) /\
  forall t, pois_E l (fun x => exp (t * x)) (poisson_mgf l t) /\
    pois_E l (fun x => cos (t * x)) (fst (poisson_cf l t)) /\
    pois_E l (fun x => sin (t * x)) (snd (poisson_cf l t)).
Proof.
  intros l _. split; [apply pE_mass|]. split; [apply pE_1|]. split.
  - eapply pE_ext; [| |apply (pE_lin l 1 1 _ _ _ _ (pE_2 l) (pE_lin l (- 2 * l) (l ^ 2) _ _ _ _ (pE_1 l) (pE_mass l)))]; intros; unfold poisson_mean, poisson_variance; cbv beta; ring.
  - intros t. split; [|split].
    + eapply rs_ext; [| |apply (rs_scal (exp (- l)) _ _ (exp_series (l * exp t)))]; cbv beta.
      * intros k. rewrite Rpow_mult_distr. replace (exp (t * INR k)) with (exp t ^ k); [unfold pois, Rdiv; ring|].
        induction k as [|k IH]; [simpl; rewrite Rmult_0_r, exp_0; reflexivity|]. rewrite S_INR, Rmult_plus_distr_l, exp_plus, <- IH, Rmult_1_r. simpl. ring.
      * unfold poisson_mgf. rewrite <- exp_plus. f_equal. ring.
    + unfold poisson_cf. rewrite cexp_it. apply (pois_series l (ca t)); [apply ca_bound|reflexivity|]. rewrite (proj1 (series_solution t l)).
      unfold cexp, Cmult, Cminus, Cplus, Copp, RtoC. cbn [fst snd]. rewrite <- Rmult_assoc, <- exp_plus. f_equal; f_equal; ring.
    + unfold poisson_cf. rewrite cexp_it. apply (pois_series l (sa t)); [apply sa_bound|reflexivity|]. rewrite (proj2 (series_solution t l)).
      unfold cexp, Cmult, Cminus, Cplus, Copp, RtoC. cbn [fst snd]. rewrite <- Rmult_assoc, <- exp_plus. f_equal; f_equal; ring.
Qed.
Print Assumptions poisson_moments.

Theorem poisson_shape : forall l, 0 < l ->
  pois_E l (fun x => (x - poisson_mean l) ^ 3) (poisson_skewness l * sqrt (poisson_variance l) ^ 3) /\
  pois_E l (fun x => (x - poisson_mean l) ^ 4) ((poisson_kurtosis l + 3) * poisson_variance l ^ 2).
Proof.
  intros l Hl. unfold poisson_mean, poisson_skewness, poisson_variance, poisson_kurtosis. split.
  - eapply pE_ext; [| |apply (pE_lin l 1 1 _ _ _ _ (pE_3 l) (pE_lin l (- 3 * l) 1 _ _ _ _ (pE_2 l) (pE_lin l (3 * l ^ 2) (- l ^ 3) _ _ _ _ (pE_1 l) (pE_mass l))))]; [intros; cbv beta; ring|].
    assert (S : 0 < sqrt l) by (apply sqrt_lt_R0, Hl). assert (Q : sqrt l * sqrt l = l) by (apply sqrt_sqrt; lra).
    transitivity l; [ring|]. rewrite <- Q at 1. field. lra.
  - eapply pE_ext; [| |apply (pE_lin l 1 1 _ _ _ _ (pE_4 l) (pE_lin l (- 4 * l) 1 _ _ _ _ (pE_3 l) (pE_lin l (6 * l ^ 2) 1 _ _ _ _ (pE_2 l) (pE_lin l (- 4 * l ^ 3) (l ^ 4) _ _ _ _ (pE_1 l) (pE_mass l)))))]; [intros; cbv beta; ring|].
    field. lra.
Qed.
Print Assumptions poisson_shape.

(** The mode has the largest mass. *)
Theorem poisson_mode_maximal : forall l, 0 < l -> exists m, poisson_mode l = INR m /\ forall k, pois l k <= pois l m.
Proof.
  intros l Hl. unfold poisson_mode. destruct (floor_nat l ltac:(lra)) as (m & E & L & U). exists m. split; [exact E|]. intros k.
  apply (unimodal (pois l) m (Nat.max m k)); [lia| | |lia].
  - intros j Hj. pose proof (pois_S l j) as Q. pose proof (pois_pos l j Hl). assert (K : INR (S j) <= INR m) by (apply le_INR; lia).
    assert (P : 0 < INR (S j)) by (apply lt_0_INR; lia). apply Rmult_le_reg_r with (INR (S j)); [exact P|]. rewrite Q. rewrite (Rmult_comm l). apply Rmult_le_compat_l; lra.
  - intros j Hj. pose proof (pois_S l j) as Q. pose proof (pois_pos l j Hl). assert (K : INR m <= INR j) by (apply le_INR; lia).
    assert (P : 0 < INR (S j)) by (apply lt_0_INR; lia). apply Rmult_le_reg_r with (INR (S j)); [exact P|]. rewrite Q. rewrite (Rmult_comm l). apply Rmult_le_compat_l; [lra|]. rewrite S_INR. lra.
Qed.
Print Assumptions poisson_mode_maximal.
(** Finding: for small rates the reported median is negative. *)
Theorem poisson_median_refuted : forall l, 0 < l <= 1 / 50 -> poisson_median l < 0.
Proof.
  intros l Hl. unfold poisson_median. pose proof (floor_spec (l + 1 / 3 - 2 / 100 / l)) as F.
  assert (G : 1 <= 2 / 100 / l). { apply Rmult_le_reg_r with l; [lra|]. unfold Rdiv. rewrite !Rmult_assoc, Rinv_l by lra. lra. } lra.
Qed.
Print Assumptions poisson_median_refuted.

(** ** Distribution function *)
(** the incomplete gamma functions at positive integers *)
Definition gamma_spec (gamma_li gamma_ui : R -> R -> R) : Prop := forall k l, 0 < l ->
  gamma_li (INR k + 1) l = RInt (fun t => t ^ k * exp (- t)) 0 l /\
  is_RInt_gen (fun t => t ^ k * exp (- t)) (at_point l) (Rbar_locally p_infty) (gamma_ui (INR k + 1) l).

Lemma pois_F_derive k x : is_derive (fun x => pois_F x k) x (- (x ^ k * exp (- x) / INR (fact k))).
Proof.
  induction k as [|k IH].
  - apply is_derive_ext with (fun x => exp (- x)). { intros t. unfold pois_F, pois. simpl. match goal with |- ?u = ?v => change (@eq R u v) end. field. }
    auto_derive; [exact I|]. simpl. field.
  - apply is_derive_ext with (fun x => pois_F x k + pois x (S k)); [reflexivity|].
    assert (T : is_derive (fun x => pois x (S k)) x (x ^ k * exp (- x) / INR (fact k) - x ^ S k * exp (- x) / INR (fact (S k)))).
    { unfold pois. rewrite fact_S. assert (A := INR_fact_neq_0 k). assert (B : INR (S k) <> 0) by (apply not_0_INR; lia).
      replace (x ^ k * exp (- x) / INR (fact k) - x ^ S k * exp (- x) / (INR (S k) * INR (fact k))) with ((INR (S k) * x ^ k * exp (- x) - x ^ S k * exp (- x)) * / (INR (S k) * INR (fact k))) by (field; split; assumption).
      apply is_derive_ext with (fun x => (x ^ S k * exp (- x)) * / (INR (S k) * INR (fact k))); [reflexivity|].
      generalize (/ (INR (S k) * INR (fact k))) as c. intros c.
      auto_derive; [exact I|]. replace (Init.Nat.pred (S k)) with k by reflexivity. simpl pow. destruct k; simpl INR; ring. }
    replace (- (x ^ S k * exp (- x) / INR (fact (S k)))) with (- (x ^ k * exp (- x) / INR (fact k)) + (x ^ k * exp (- x) / INR (fact k) - x ^ S k * exp (- x) / INR (fact (S k)))) by ring.
    apply (is_derive_plus (K:=R_AbsRing) (V:=R_NormedModule)); assumption.
Qed.
Lemma gk_cont (k : nat) t : continuous (fun t => t ^ k * exp (- t)) t.
Proof. apply (ex_derive_continuous (K:=R_AbsRing) (V:=R_NormedModule)). auto_derive. exact I. Qed.
Lemma gamma_int k a b : is_RInt (fun t => t ^ k * exp (- t)) a b (INR (fact k) * (pois_F a k - pois_F b k)).
Proof.
  replace (INR (fact k) * (pois_F a k - pois_F b k)) with (minus (- INR (fact k) * pois_F b k) (- INR (fact k) * pois_F a k)) by (unfold minus, plus, opp; simpl; ring).
  apply (is_RInt_derive (V:=R_CompleteNormedModule) (fun x => - INR (fact k) * pois_F x k)).
  - intros x _. replace (x ^ k * exp (- x)) with (- INR (fact k) * - (x ^ k * exp (- x) / INR (fact k))) by (field; apply INR_fact_neq_0).
    apply (is_derive_scal (fun x => pois_F x k)). apply pois_F_derive.
  - intros x _. apply gk_cont.
Qed.
Lemma pois_F_0 k : pois_F 0 k = 1.
Proof.
  unfold pois_F. rewrite bs_shift. rewrite (bs_ext k _ (fun _ => 0)), bs_zero by (intros i _; unfold pois; simpl; rewrite Rmult_0_l; unfold Rdiv; ring).
  unfold pois. simpl. rewrite Ropp_0, exp_0. field.
Qed.
Lemma pois_F_bounds l k : 0 < l -> 0 < pois_F l k < 1.
Proof.
  intros Hl. assert (P : forall j, 0 < pois l j) by (intros; apply pois_pos, Hl). split.
  - unfold pois_F. rewrite bs_shift. pose proof (P 0%nat). assert (0 <= bs k (fun i => pois l (S i))) by (apply bs_nonneg; intros i _; left; apply P). lra.
  - assert (M : pois_F l (S k) <= 1).
    { unfold pois_F. rewrite (bs_ext _ (pois l) (fun j => pois l j * 1)) by (intros; ring). apply partial_le; [|apply pE_mass]. intros j. rewrite Rmult_1_r. left. apply P. }
    unfold pois_F in *. cbn [bs] in *. pose proof (P (S k)). lra.
Qed.

Lemma pois_F_small l k : 0 < l -> pois_F l k <= INR (S k) * INR (S k) / l.
Proof.
  intros Hl. assert (T : forall i, (i < S k)%nat -> pois l i <= INR (S k) / l).
  { intros i Hi. pose proof (pois_S l i) as Q. pose proof (pois_F_bounds l (S i) Hl) as B. unfold pois_F in B. cbn [bs] in B.
    assert (0 <= bs i (pois l)) by (apply bs_nonneg; intros; left; apply pois_pos, Hl). pose proof (pois_pos l i Hl).
    assert (U : pois l (S i) <= 1) by lra. assert (K : INR (S i) <= INR (S k)) by (apply le_INR; lia). assert (P : 0 < INR (S i)) by (apply lt_0_INR; lia).
    apply Rmult_le_reg_r with l; [exact Hl|]. unfold Rdiv. rewrite Rmult_assoc, Rinv_l, Rmult_1_r by lra. rewrite Rmult_comm, <- Q. nra. }
  unfold pois_F. eapply Rle_trans; [apply bs_le; exact T|]. rewrite bs_const. unfold Rdiv. rewrite Rmult_assoc. apply Rle_refl.
Qed.
Lemma pois_F_lim k : is_lim (fun l => pois_F l k) p_infty 0.
Proof.
  apply (is_lim_le_le_loc (fun _ => 0) (fun l => INR (S k) * INR (S k) / l)).
  - exists 0. intros l Hl. split; [left; apply (pois_F_bounds l k Hl)|apply pois_F_small, Hl].
  - apply is_lim_const.
  - unfold Rdiv. replace (Finite 0) with (Rbar_mult (INR (S k) * INR (S k)) (Rbar_inv p_infty)) by (simpl Rbar_inv; apply Rbar_mult_0_r || (simpl; f_equal; ring)).
    apply is_lim_scal_l. apply is_lim_inv; [apply is_lim_id|discriminate].
Qed.

(** Finding: the distribution function is smaller than the sum of the mass at
    every integer: it divides by the upper incomplete gamma function instead of
    the complete one. *)
Theorem poisson_cdf_refuted : forall gamma_li gamma_ui l k, gamma_spec gamma_li gamma_ui -> 0 < l ->
  exists v, poisson_cdf gamma_li gamma_ui l (INR k) = Some v /\ v = 2 - 1 / pois_F l k /\ v < pois_F l k.
Proof.
  intros gl gu l k HG Hl. destruct (HG k l Hl) as [L U]. unfold poisson_cdf. rewrite L.
  pose proof (pois_F_bounds l k Hl) as B. pose proof (INR_fact_lt_0 k) as P.
  rewrite (is_RInt_unique _ _ _ _ (gamma_int k 0 l)), pois_F_0.
  assert (E : gu (INR k + 1) l = INR (fact k) * pois_F l k).
  { apply (igen_unique (at_point l) (Rbar_locally p_infty) (fun t => t ^ k * exp (- t))); [exact U|].
    replace (INR (fact k) * pois_F l k) with (0 - (- INR (fact k) * pois_F l k)) by ring.
    apply (igen_from (fun x => - INR (fact k) * pois_F x k)).
    - intros x _. replace (x ^ k * exp (- x)) with (- INR (fact k) * - (x ^ k * exp (- x) / INR (fact k))) by (field; apply INR_fact_neq_0).
      apply (is_derive_scal (fun x => pois_F x k)). apply pois_F_derive.
    - intros x _. apply gk_cont.
    - replace (Finite 0) with (Rbar_mult (- INR (fact k)) 0) by (simpl; f_equal; ring). apply is_lim_scal_l, pois_F_lim. }
  rewrite E. unfold fdiv. destruct (Reqb_spec (INR (fact k) * pois_F l k) 0) as [Z|_]; [exfalso; apply Rmult_integral in Z; lra|]. cbn [option_map].
  eexists. split; [reflexivity|]. split; [field; lra|].
  apply Rmult_lt_reg_r with (pois_F l k); [lra|]. replace ((1 - INR (fact k) * (1 - pois_F l k) / (INR (fact k) * pois_F l k)) * pois_F l k) with (2 * pois_F l k - 1) by (field; lra).
  nra.
Qed.
Print Assumptions poisson_cdf_refuted.
Example gamma_exists : exists gl gu, gamma_spec gl gu.
Proof.
  exists (fun a l => RInt (fun t => t ^ (as_usize a - 1) * exp (- t)) 0 l), (fun a l => INR (fact (as_usize a - 1)) * pois_F l (as_usize a - 1)).
  intros k l Hl. rewrite <- S_INR, as_usize_INR. replace (S k - 1)%nat with k by lia. split; [reflexivity|].
  replace (INR (fact k) * pois_F l k) with (0 - (- INR (fact k) * pois_F l k)) by ring.
  apply (igen_from (fun x => - INR (fact k) * pois_F x k)).
  - intros x _. replace (x ^ k * exp (- x)) with (- INR (fact k) * - (x ^ k * exp (- x) / INR (fact k))) by (field; apply INR_fact_neq_0).
    apply (is_derive_scal (fun x => pois_F x k)). apply pois_F_derive.
  - intros x _. apply gk_cont.
  - replace (Finite 0) with (Rbar_mult (- INR (fact k)) 0) by (simpl; f_equal; ring). apply is_lim_scal_l, pois_F_lim.
Qed.

(** ** Quantile *)
Lemma psearch_spec l p : forall d k fuel, (k + d = 21)%nat -> (d < fuel)%nat -> (forall j, (j < k)%nat -> pois_F l j < p) ->
  0 < p ->
  (exists m, (m <= 20)%nat /\ poisson_search fuel l p (bs k (pois l)) k = Ret (Z.of_nat m) /\ p <= pois_F l m /\ forall j, (j < m)%nat -> pois_F l j < p) \/
  (poisson_search fuel l p (bs k (pois l)) k = Panic /\ pois_F l 20 < p).
Proof.
  induction d as [|d IH]; intros k fuel E Hf Hj Hp; (destruct fuel as [|fuel]; [lia|]); cbn [poisson_search].
  - replace k with 21%nat in * by lia. right. assert (L : pois_F l 20 < p) by (apply Hj; lia). split; [|exact L].
    destruct (Rltb_spec (bs 21 (pois l)) p) as [_|N]; [|exfalso; apply N; exact L]. rewrite poisson_pmf_overflow_refuted by lia. reflexivity.
  - destruct (Rltb_spec (bs k (pois l)) p) as [L|N].
    + rewrite poisson_pmf_exact by lia. cbn [bind]. change (bs k (pois l) + pois l k) with (bs (S k) (pois l)).
      destruct (Rlt_dec (pois_F l k) p) as [L'|G].
      * apply IH; try lia; [|exact Hp]. intros j H. destruct (Nat.eq_dec j k) as [->|]; [exact L'|apply Hj; lia].
      * left. exists k. split; [lia|]. destruct fuel as [|fuel]; [lia|]. cbn [poisson_search].
        destruct (Rltb_spec (bs (S k) (pois l)) p) as [C|_]; [exfalso; apply G; exact C|].
        split; [f_equal; lia|]. split; [lra|exact Hj].
    + exfalso. destruct k as [|k]; [simpl in N; lra|]. apply N. apply (Hj k). lia.
Qed.
(** For 0 < p < 1 the quantile is the least outcome whose probability reaches p
    if that is at most 20; otherwise the search panics. *)
Theorem poisson_quantile : forall fuel l p, 0 < p <= 1 - f64_eps -> (22 <= fuel)%nat ->
  (exists m, (m <= 20)%nat /\ poisson_inv_cdf fuel l p = Ret (QVal (INR m)) /\ p <= pois_F l m /\ forall j, (j < m)%nat -> pois_F l j < p) \/
  (poisson_inv_cdf fuel l p = Panic /\ pois_F l 20 < p).
Proof.
  intros fuel l p Hp Hf. assert (E0 : 0 < f64_eps) by (unfold f64_eps; apply Rinv_0_lt_compat, pow_lt; lra).
  unfold poisson_inv_cdf, unit_interval. destruct (Rleb_spec 0 p); [|lra]. destruct (Rleb_spec p 1); [|lra]. cbn [andb negb].
  destruct (Rltb_spec (Rabs (p - 1)) f64_eps) as [C|_]; [rewrite Rabs_left1 in C by lra; lra|].
  destruct (psearch_spec l p 21 0 fuel) as [(m & Hm & E & A)|[E A]]; try lia; try lra; cbn [bs] in E; rewrite E.
  - left. exists m. split; [exact Hm|]. split; [|exact A]. unfold rmap. cbn [bind]. rewrite <- INR_IZR_INZ. reflexivity.
  - right. split; [reflexivity|exact A].
Qed.
Print Assumptions poisson_quantile.
(** Findings: the quantile of 0 is -1; and for every p there are rates for which
    the quantile panics. *)
Theorem poisson_quantile_zero_refuted : forall fuel l, poisson_inv_cdf (S fuel) l 0 = Ret (QVal (-1)).
Proof.
  intros fuel l. unfold poisson_inv_cdf, unit_interval. destruct (Rleb_spec 0 0); [|lra]. destruct (Rleb_spec 0 1); [|lra]. cbn [andb negb].
  assert (E1 : f64_eps < 1). { unfold f64_eps. rewrite <- Rinv_1. apply Rinv_lt_contravar; [|apply Rlt_pow_R1; [lra|lia]]. rewrite Rmult_1_l. apply pow_lt. lra. }
  destruct (Rltb_spec (Rabs (0 - 1)) f64_eps) as [C|_]; [rewrite Rabs_left in C by lra; lra|].
  cbn [poisson_search]. destruct (Rltb_spec 0 0); [lra|]. reflexivity.
Qed.
Print Assumptions poisson_quantile_zero_refuted.
Theorem poisson_quantile_panics_refuted : forall fuel p, 0 < p <= 1 - f64_eps -> (22 <= fuel)%nat ->
  exists L, forall l, L < l -> poisson_inv_cdf fuel l p = Panic.
Proof.
  intros fuel p Hp Hf. exists (Rmax 0 (INR 21 * INR 21 / p)). intros l Hl. pose proof (Rmax_l 0 (INR 21 * INR 21 / p)). pose proof (Rmax_r 0 (INR 21 * INR 21 / p)).
  assert (P : 0 < l) by lra. assert (S : forall m, (m <= 20)%nat -> pois_F l m < p).
  { intros m Hm. eapply Rle_lt_trans; [apply pois_F_small, P|]. apply Rmult_lt_reg_r with l; [exact P|]. unfold Rdiv. rewrite Rmult_assoc, Rinv_l, Rmult_1_r by lra.
    assert (K : INR (S m) <= INR 21) by (apply le_INR; lia). pose proof (pos_INR (S m)).
    apply Rle_lt_trans with (INR 21 * INR 21); [apply Rmult_le_compat; assumption|].
    assert (Q : INR 21 * INR 21 / p < l) by lra. apply (Rmult_lt_compat_r p) in Q; [|lra]. unfold Rdiv in Q. rewrite Rmult_assoc, Rinv_l, Rmult_1_r in Q by lra. lra. }
  destruct (poisson_quantile fuel l p Hp Hf) as [(m & Hm & _ & A & _)|[E _]]; [|exact E]. specialize (S m Hm). lra.
Qed.
Print Assumptions poisson_quantile_panics_refuted.
Example poisson_case : poisson_new 1 = Ret 1 /\ 0 < 1 / 2 <= 1 - f64_eps.
Proof.
  split; [unfold poisson_new; destruct (Rltb_spec 0 1); [reflexivity|lra]|]. unfold f64_eps. split; [lra|].
  assert (/ 2 ^ 52 <= / 2). { apply Rinv_le_contravar; [lra|]. rewrite <- (pow_1 2) at 1. apply Rle_pow; [lra|lia]. } lra.
Qed.

(** ** Discrete uniform *)
Lemma fround_int x : exists z, fround x = IZR z /\ IZR z - 1 / 2 <= x <= IZR z + 1 / 2.
Proof.
  unfold fround. destruct (Rleb_spec 0 x).
  - exists (Int_part (x + 1 / 2)). unfold ffloor. split; [reflexivity|]. destruct (base_Int_part (x + 1 / 2)). lra.
  - exists (- Int_part (- x + 1 / 2))%Z. unfold ffloor. rewrite opp_IZR. split; [reflexivity|]. destruct (base_Int_part (- x + 1 / 2)). lra.
Qed.
Lemma fround_le x y : x <= y -> fround x <= fround y.
Proof.
  intros H. assert (M : forall u v, u <= v -> ffloor u <= ffloor v).
  { intros u v L. unfold ffloor. apply IZR_le. destruct (base_Int_part u), (base_Int_part v). apply Z.lt_succ_r, lt_IZR. rewrite succ_IZR. lra. }
  unfold fround. destruct (Rleb_spec 0 x), (Rleb_spec 0 y); try lra.
  - apply M. lra.
  - pose proof (floor_spec (- x + 1 / 2)) as A. pose proof (floor_spec (y + 1 / 2)) as B.
    assert (0 <= ffloor (- x + 1 / 2)). { unfold ffloor in *. assert ((0 < Int_part (- x + 1 / 2) + 1)%Z) by (apply lt_IZR; rewrite plus_IZR; lra). apply IZR_le. lia. }
    assert (0 <= ffloor (y + 1 / 2)). { unfold ffloor in *. assert ((0 < Int_part (y + 1 / 2) + 1)%Z) by (apply lt_IZR; rewrite plus_IZR; lra). apply IZR_le. lia. } lra.
  - apply Ropp_le_contravar. apply M. lra.
Qed.
(** a discrete uniform is the equal-weight distribution on n+1 consecutive integers *)
Lemma uniform_discrete a b u : uniform_new a b Discrete = Ret u ->
  exists z n, ua u = IZR z /\ ub u = IZR z + INR n /\ uclass u = Discrete.
Proof.
  unfold uniform_new. destruct (Rleb_spec a b) as [H|]; [|discriminate]. intros E. assert (E2 : u = {| ua := fround a; ub := fround b; uclass := Discrete |}) by congruence. subst u. cbn [ua ub uclass].
  destruct (fround_int a) as (za & Ea & _). destruct (fround_int b) as (zb & Eb & _). pose proof (fround_le a b H) as L. rewrite Ea, Eb in *. apply le_IZR in L.
  exists za, (Z.to_nat (zb - za)). repeat split. rewrite INR_IZR_INZ, Z2Nat.id by lia. rewrite minus_IZR. lra.
Qed.
(** expectation of f under the returned mass function, over the integers from a to b *)
Definition unif_E (u : uniform) (n : nat) (f : R -> R) : R :=
  bs (S n) (fun i => match uniform_pdf u (ua u + INR i) with Some w => w * f (ua u + INR i) | None => 0 end).

Section Disc.
Variables (u : uniform) (z : Z) (n : nat).
Hypothesis (Ha : ua u = IZR z) (Hb : ub u = IZR z + INR n) (Hc : uclass u = Discrete).
Local Notation N := (INR n + 1).
Lemma Npos : 0 < N. Proof. pose proof (pos_INR n). lra. Qed.
Lemma width : uwidth u = N. Proof. unfold uwidth. rewrite Hc, Ha, Hb. ring. Qed.
Lemma disc_pmf i : (i <= n)%nat -> uniform_pdf u (ua u + INR i) = Some (1 / N).
Proof.
  intros Hi. unfold uniform_pdf. rewrite width, Ha, Hb. apply le_INR in Hi. pose proof (pos_INR i).
  destruct (Rleb_spec (IZR z) (IZR z + INR i)); [|lra]. destruct (Rleb_spec (IZR z + INR i) (IZR z + INR n)); [|lra]. cbn [andb].
  unfold fdiv. pose proof Npos. destruct (Reqb_spec N 0); [lra|reflexivity].
Qed.
Lemma unif_E_val f : unif_E u n f = bs (S n) (fun i => f (IZR z + INR i)) / N.
Proof.
  unfold unif_E. rewrite (bs_ext (S n) _ (fun i => / N * f (IZR z + INR i))).
  - rewrite bs_scal. unfold Rdiv. ring.
  - intros i Hi. rewrite disc_pmf by lia. rewrite Ha. unfold Rdiv. ring.
Qed.
End Disc.
Lemma s1 n : bs (S n) INR = INR n * (INR n + 1) / 2.
Proof. induction n as [|n IH]; [simpl; lra|]. cbn [bs] in *. rewrite IH, S_INR. field. Qed.
Lemma s2 n : bs (S n) (fun i => INR i ^ 2) = INR n * (INR n + 1) * (2 * INR n + 1) / 6.
Proof. induction n as [|n IH]; [simpl; lra|]. cbn [bs] in *. rewrite IH, S_INR. field. Qed.
Lemma s3 n : bs (S n) (fun i => INR i ^ 3) = (INR n * (INR n + 1) / 2) ^ 2.
Proof. induction n as [|n IH]; [simpl; lra|]. cbn [bs] in *. rewrite IH, S_INR. field. Qed.
Lemma s4 n : bs (S n) (fun i => INR i ^ 4) = INR n * (INR n + 1) * (2 * INR n + 1) * (3 * INR n ^ 2 + 3 * INR n - 1) / 30.
Proof. induction n as [|n IH]; [simpl; lra|]. cbn [bs] in *. rewrite IH, S_INR. field. Qed.
Lemma central_even n : bs (S n) (fun i => (INR i - INR n / 2) ^ 2) = (INR n + 1) * ((INR n + 1) ^ 2 - 1) / 12.
Proof.
  rewrite (bs_ext (S n) _ (fun i => INR i ^ 2 + ((- INR n) * INR i + (INR n / 2) ^ 2))) by (intros; field).
  rewrite bs_plus, bs_plus, bs_scal, bs_const, s2, s1, S_INR. field.
Qed.
Lemma central_three n : bs (S n) (fun i => (INR i - INR n / 2) ^ 3) = 0.
Proof.
  rewrite (bs_ext (S n) _ (fun i => INR i ^ 3 + ((- 3 / 2 * INR n) * INR i ^ 2 + ((3 / 4 * INR n ^ 2) * INR i + - (INR n / 2) ^ 3)))) by (intros; field).
  rewrite !bs_plus, !bs_scal, bs_const, s3, s2, s1, S_INR. field.
Qed.
Lemma central_four n : bs (S n) (fun i => (INR i - INR n / 2) ^ 4) = (INR n + 1) * ((INR n + 1) ^ 2 - 1) * (3 * (INR n + 1) ^ 2 - 7) / 240.
Proof.
  rewrite (bs_ext (S n) _ (fun i => INR i ^ 4 + ((- 2 * INR n) * INR i ^ 3 + ((3 / 2 * INR n ^ 2) * INR i ^ 2 + ((- INR n ^ 3 / 2) * INR i + (INR n / 2) ^ 4))))) by (intros; field).
  rewrite !bs_plus, !bs_scal, bs_const, s4, s3, s2, s1, S_INR. field.
Qed.
Lemma geometric x n : (1 - x) * bs (S n) (fun i => x ^ i) = 1 - x ^ S n.
Proof. induction n as [|n IH]; [simpl; ring|]. cbn [bs] in *. rewrite Rmult_plus_distr_l, IH. simpl. ring. Qed.
Lemma exp_nat t i : exp (t * INR i) = exp t ^ i.
Proof. induction i as [|i IH]; [simpl; rewrite Rmult_0_r; apply exp_0|]. rewrite S_INR, Rmult_plus_distr_l, exp_plus, IH, Rmult_1_r. simpl. ring. Qed.

(** Mass, mean, skewness, excess kurtosis and (away from zero) the moment
    generating function of the discrete uniform distribution. *)
Theorem uniform_discrete_moments : forall a b u, uniform_new a b Discrete = Ret u -> exists n, ub u = ua u + INR n /\
  unif_E u n (fun _ => 1) = 1 /\
  unif_E u n (fun x => x) = uniform_mean u /\
  unif_E u n (fun x => (x - uniform_mean u) ^ 3) = uniform_skewness u /\
  ((0 < n)%nat -> exists k, uniform_kurtosis u = Some k /\
     k = unif_E u n (fun x => (x - uniform_mean u) ^ 4) / (unif_E u n (fun x => (x - uniform_mean u) ^ 2)) ^ 2 - 3) /\
  forall t, t <> 0 -> uniform_mgf u t = Some (unif_E u n (fun x => exp (t * x))).
Proof.
  intros a b u H. destruct (uniform_discrete a b u H) as (z & n & Ha & Hb & Hc). exists n. split; [rewrite Ha; exact Hb|].
  assert (P : 0 < INR n + 1) by (pose proof (pos_INR n); lra).
  assert (Mn : uniform_mean u = IZR z + INR n / 2) by (unfold uniform_mean; rewrite Ha, Hb; field).
  repeat rewrite (unif_E_val u z n Ha Hb Hc). rewrite Mn. unfold uniform_skewness.
  split; [rewrite bs_const, S_INR; field; lra|]. split.
  { rewrite (bs_ext (S n) _ (fun i => 1 * INR i + IZR z)) by (intros; ring). rewrite bs_plus, bs_scal, bs_const, S_INR. change (bs (S n) (fun i => INR i)) with (bs (S n) INR). rewrite s1. field. lra. }
  split.
  { rewrite (bs_ext (S n) _ (fun i => (INR i - INR n / 2) ^ 3)) by (intros; field). rewrite central_three. field. lra. }
  split.
  - intros Hn. assert (Q : 1 <= INR n) by (apply (le_INR 1); lia). unfold uniform_kurtosis. rewrite Hc, Ha, Hb. replace (IZR z + INR n - IZR z + 1) with (INR n + 1) by ring.
    unfold fdiv. destruct (Reqb_spec (5 * ((INR n + 1) * (INR n + 1) - 1)) 0) as [Z|_]; [nra|]. eexists. split; [reflexivity|].
    rewrite (bs_ext (S n) (fun i => (IZR z + INR i - (IZR z + INR n / 2)) ^ 4) (fun i => (INR i - INR n / 2) ^ 4)) by (intros; field).
    rewrite (bs_ext (S n) (fun i => (IZR z + INR i - (IZR z + INR n / 2)) ^ 2) (fun i => (INR i - INR n / 2) ^ 2)) by (intros; field).
    rewrite central_four, central_even. field. repeat split; nra.
  - intros t Ht. unfold uniform_mgf. rewrite Hc, Ha, Hb. rewrite (unif_E_val u z n Ha Hb Hc). replace (IZR z + INR n - IZR z + 1) with (INR n + 1) by ring.
    assert (E1 : exp t <> 1) by (intro Q; apply Ht; apply exp_inv; rewrite Q, exp_0; reflexivity).
    unfold fdiv. destruct (Reqb_spec ((INR n + 1) * (1 - exp t)) 0) as [Z|_]; [apply Rmult_integral in Z; lra|]. f_equal.
    rewrite (bs_ext (S n) _ (fun i => exp (t * IZR z) * exp t ^ i)) by (intros; rewrite Rmult_plus_distr_l, exp_plus, exp_nat; reflexivity).
    rewrite bs_scal. change (bs (S n) (pow (exp t))) with (bs (S n) (fun i => exp t ^ i)). pose proof (geometric (exp t) n) as G.
    replace (exp (t * (IZR z + INR n + 1))) with (exp (t * IZR z) * exp t ^ S n) by (rewrite <- exp_nat, <- exp_plus, S_INR; f_equal; ring).
    replace (exp (t * IZR z) - exp (t * IZR z) * exp t ^ S n) with (exp (t * IZR z) * (1 - exp t ^ S n)) by ring. rewrite <- G.
    match goal with |- context [bs (S n) ?f] => generalize (bs (S n) f); intros B end. unfold Rdiv. field. lra.
Qed.
Print Assumptions uniform_discrete_moments.

(** Finding: the reported variance is too large; the mgf at 0 is NaN; the mass
    function is positive between the integers. *)
Theorem uniform_discrete_variance_refuted : forall a b u, uniform_new a b Discrete = Ret u -> exists n, ub u = ua u + INR n /\
  unif_E u n (fun x => (x - uniform_mean u) ^ 2) = uniform_variance u - 1 / 12 /\
  uniform_mgf u 0 = None /\
  (forall x, ua u < x < ub u -> exists w, uniform_pdf u x = Some w /\ 0 < w).
Proof.
  intros a b u H. destruct (uniform_discrete a b u H) as (z & n & Ha & Hb & Hc). exists n. split; [rewrite Ha; exact Hb|].
  assert (P : 0 < INR n + 1) by (pose proof (pos_INR n); lra).
  split; [|split].
  - rewrite (unif_E_val u z n Ha Hb Hc). unfold uniform_mean, uniform_variance. rewrite Hc, Ha, Hb.
    rewrite (bs_ext (S n) _ (fun i => (INR i - INR n / 2) ^ 2)) by (intros; field). rewrite central_even. field. lra.
  - unfold uniform_mgf. rewrite Hc. unfold fdiv. rewrite exp_0. match goal with |- context [Reqb ?d 0] => destruct (Reqb_spec d 0) as [|N] end; [reflexivity|]. exfalso. apply N. ring.
  - intros x Hx. unfold uniform_pdf. rewrite (width u z n Ha Hb Hc). destruct (Rleb_spec (ua u) x); [|lra]. destruct (Rleb_spec x (ub u)); [|lra]. cbn [andb].
    unfold fdiv. destruct (Reqb_spec (INR n + 1) 0); [lra|]. eexists. split; [reflexivity|]. unfold Rdiv. rewrite Rmult_1_l. apply Rinv_0_lt_compat, P.
Qed.
Print Assumptions uniform_discrete_variance_refuted.

(** The distribution function adds up the mass at every real argument. *)
Theorem uniform_discrete_cdf : forall a b u x, uniform_new a b Discrete = Ret u -> exists n, ub u = ua u + INR n /\
  uniform_cdf u x = Some (unif_E u n (fun y => if Rleb y x then 1 else 0)).
Proof.
  intros a b u x H. destruct (uniform_discrete a b u H) as (z & n & Ha & Hb & Hc). exists n. split; [rewrite Ha; exact Hb|].
  assert (P : 0 < INR n + 1) by (pose proof (pos_INR n); lra). rewrite (unif_E_val u z n Ha Hb Hc). unfold uniform_cdf. rewrite Hc, Ha, Hb.
  destruct (Rltb_spec x (IZR z)) as [L|L].
  - f_equal. rewrite (bs_ext (S n) _ (fun _ => 0)); [rewrite bs_zero; field; lra|]. intros i _. pose proof (pos_INR i). destruct (Rleb_spec (IZR z + INR i) x); [lra|reflexivity].
  - destruct (Rleb_spec (IZR z) x) as [A|]; [|lra]. destruct (Rleb_spec x (IZR z + INR n)) as [B|B]; cbn [andb].
    + replace (IZR z + INR n - IZR z + 1) with (INR n + 1) by ring. unfold fdiv. destruct (Reqb_spec (INR n + 1) 0); [lra|]. f_equal. f_equal.
      destruct (floor_nat (x - IZR z) ltac:(lra)) as (m & Em & M1 & M2).
      assert (F : ffloor x = IZR z + INR m). { unfold ffloor. rewrite (floor_unique x (z + Z.of_nat m)); rewrite plus_IZR, <- INR_IZR_INZ; lra. }
      rewrite F. assert (Hm : (m <= n)%nat). { assert (INR m < INR (S n)) by (rewrite S_INR; lra). apply INR_lt in H0. lia. }
      assert (G : forall k, bs k (fun i => if Rleb (IZR z + INR i) x then 1 else 0) = INR (Nat.min k (S m))).
      { induction k as [|k IH]; [reflexivity|]. cbn [bs]. rewrite IH. destruct (Rleb_spec (IZR z + INR k) x) as [Q|Q].
        - assert (INR k < INR (S m)) by (rewrite S_INR; lra). apply INR_lt in H0. rewrite !Nat.min_l by lia. rewrite S_INR. reflexivity.
        - assert (INR m < INR k) by lra. apply INR_lt in H0. rewrite !Nat.min_r by lia. ring. }
      rewrite G, Nat.min_r, S_INR by lia. ring.
    + f_equal. rewrite (bs_ext (S n) _ (fun _ => 1)); [rewrite bs_const, S_INR; field; lra|]. intros i Hi. assert (K : INR i <= INR n) by (apply le_INR; lia).
      destruct (Rleb_spec (IZR z + INR i) x); [reflexivity|lra].
Qed.
Print Assumptions uniform_discrete_cdf.

(** Finding: sampling truncates a draw from [a, b), so the upper end is never
    drawn and negative supports are replaced by 0. *)
Theorem uniform_discrete_sample_refuted : forall a b u draw, uniform_new a b Discrete = Ret u -> ua u <= draw < ub u ->
  (0 <= ua u -> uniform_sample_value u draw <= ub u - 1) /\ (ub u <= 0 -> uniform_sample_value u draw = 0).
Proof.
  intros a b u draw H Hd. destruct (uniform_discrete a b u H) as (z & n & Ha & Hb & Hc). unfold uniform_sample_value. rewrite Hc. split; intros K.
  - unfold as_usize, tz. destruct (Rleb_spec 0 draw); [|lra]. destruct (base_Int_part draw) as [A B].
    assert (T : ub u = IZR (z + Z.of_nat n)) by (rewrite Hb, plus_IZR, <- INR_IZR_INZ; reflexivity). rewrite T in *.
    assert (L : (Int_part draw < z + Z.of_nat n)%Z) by (apply lt_IZR; lra). assert (Q : (0 < Int_part draw + 1)%Z) by (apply lt_IZR; rewrite plus_IZR; lra).
    rewrite INR_IZR_INZ, Z2Nat.id by lia. assert (M : (Int_part draw <= z + Z.of_nat n - 1)%Z) by lia. apply IZR_le in M. rewrite minus_IZR in M. exact M.
  - unfold as_usize, tz. destruct (Rleb_spec 0 draw); [lra|]. destruct (base_Int_part (- draw)) as [A B]. assert (Q : (0 < Int_part (- draw) + 1)%Z) by (apply lt_IZR; rewrite plus_IZR; lra).
    replace (Z.to_nat (- Int_part (- draw))) with 0%nat by lia. reflexivity.
Qed.
Print Assumptions uniform_discrete_sample_refuted.
Example uniform_discrete_case : exists u, uniform_new 0 5 Discrete = Ret u.
Proof. unfold uniform_new. destruct (Rleb_spec 0 5); [|lra]. eexists. reflexivity. Qed.

(** The characteristic function, where the closed form is defined. *)
Lemma ceq (a b : C) : fst a = fst b -> snd a = snd b -> a = b.
Proof. destruct a, b. simpl. congruence. Qed.
Lemma cis_geometric t : forall n, Cmult (Cminus (RtoC 1) (cexp (it t))) (bs (S n) (fun i => cos (t * INR i)), bs (S n) (fun i => sin (t * INR i))) = Cminus (RtoC 1) (cexp (it (t * INR (S n)))).
Proof.
  assert (A : forall i, cos (t * INR (S i)) = cos t * cos (t * INR i) - sin t * sin (t * INR i) /\ sin (t * INR (S i)) = sin t * cos (t * INR i) + cos t * sin (t * INR i)).
  { intros i. rewrite S_INR, Rmult_plus_distr_l, Rmult_1_r, cos_plus, sin_plus. split; ring. }
  induction n as [|n IH].
  - rewrite !cexp_it. cbn [bs]. simpl INR. rewrite Rmult_0_r, cos_0, sin_0, Rmult_1_r. apply ceq; simpl; ring.
  - rewrite !cexp_it in *. apply (f_equal fst) in IH as I1. apply (f_equal snd) in IH as I2. cbn [bs] in *. destruct (A (S n)) as [C1 S1]. rewrite C1, S1.
    unfold Cmult, Cminus, Cplus, Copp, RtoC in *. cbn [fst snd] in *. apply ceq; cbn [fst snd]; nra.
Qed.
Theorem uniform_discrete_cf : forall a b u t, uniform_new a b Discrete = Ret u -> cos t <> 1 -> exists n, ub u = ua u + INR n /\
  uniform_cf u t = (unif_E u n (fun x => cos (t * x)), unif_E u n (fun x => sin (t * x))).
Proof.
  intros a b u t H Ht. destruct (uniform_discrete a b u H) as (z & n & Ha & Hb & Hc). exists n. split; [rewrite Ha; exact Hb|].
  assert (P : 0 < INR n + 1) by (pose proof (pos_INR n); lra). rewrite !(unif_E_val u z n Ha Hb Hc). unfold uniform_cf. rewrite Hc, Ha, Hb.
  replace (IZR z + INR n - IZR z + 1) with (INR n + 1) by ring.
  rewrite (bs_ext (S n) (fun i => cos (t * (IZR z + INR i))) (fun i => cos (t * IZR z) * cos (t * INR i) + (- sin (t * IZR z)) * sin (t * INR i))) by (intros; rewrite Rmult_plus_distr_l, cos_plus; ring).
  rewrite (bs_ext (S n) (fun i => sin (t * (IZR z + INR i))) (fun i => sin (t * IZR z) * cos (t * INR i) + cos (t * IZR z) * sin (t * INR i))) by (intros; rewrite Rmult_plus_distr_l, sin_plus; ring).
  rewrite !bs_plus, !bs_scal. pose proof (cis_geometric t n) as G.
  replace (t * (IZR z + INR n + 1)) with (t * IZR z + t * INR (S n)) by (rewrite S_INR; ring).
  rewrite !cexp_it in *. rewrite cos_plus, sin_plus. set (c := bs (S n) (fun i => cos (t * INR i))) in *. set (s := bs (S n) (fun i => sin (t * INR i))) in *. clearbody c s.
  apply (f_equal fst) in G as G1. apply (f_equal snd) in G as G2. unfold Cmult, Cminus, Cplus, Copp, RtoC in G1, G2. cbn [fst snd] in G1, G2.
  assert (CN : cos (t * INR (S n)) = 1 - ((1 + - cos t) * c - (0 + - sin t) * s)) by lra. assert (SN : sin (t * INR (S n)) = - ((1 + - cos t) * s + (0 + - sin t) * c)) by lra.
  rewrite CN, SN. generalize (cos (t * IZR z)) (sin (t * IZR z)). intros cz sz. generalize (INR n + 1) P. intros N PN. clear - Ht PN.
  pose proof (COS_bound t) as CB. assert (D : 0 < 1 - cos t) by (destruct CB as [_ CB]; destruct (Rtotal_order (cos t) 1) as [?|[?|?]]; lra).
  generalize (sin t) (cos t) D. intros st ct HD. unfold Cdiv, Cinv, Cmult, Cminus, Cplus, Copp, RtoC. cbn [fst snd].
  assert (K : ((1 + - ct) * N - (0 + - st) * 0) ^ 2 + ((1 + - ct) * 0 + (0 + - st) * N) ^ 2 <> 0).
  { assert (0 < ((1 + - ct) * N) ^ 2) by (apply pow_lt; nra). assert (0 <= ((0 + - st) * N) ^ 2) by apply pow2_ge_0. nra. }
  apply ceq; cbn [fst snd]; field; split; try lra; nra.
Qed.
Print Assumptions uniform_discrete_cf.
