(** C51, first part: Bernoulli and binomial distributions. *)
From Coq Require Import Reals ZArith PeanoNat Bool Lra Lia.
From Coquelicot Require Import Coquelicot.
From Verif Require Import Res InterpModel InterpProofs MatLib StatModel SpecialFns DistModel.
Open Scope R_scope.

(** ** Casts *)
Lemma Int_part_INR k : Int_part (INR k) = Z.of_nat k.
Proof.
  destruct (base_Int_part (INR k)) as [A B]. rewrite INR_IZR_INZ in *.
  assert (U : (Int_part (IZR (Z.of_nat k)) <= Z.of_nat k)%Z) by (apply le_IZR; exact A).
  assert (V : (Z.of_nat k < Int_part (IZR (Z.of_nat k)) + 1)%Z) by (apply lt_IZR; rewrite plus_IZR; lra). lia.
Qed.
Lemma tz_INR k : tz (INR k) = Z.of_nat k.
Proof. unfold tz. destruct (Rleb_spec 0 (INR k)); [apply Int_part_INR|pose proof (pos_INR k); lra]. Qed.
Lemma as_usize_INR k : as_usize (INR k) = k.
Proof. unfold as_usize. rewrite tz_INR. apply Nat2Z.id. Qed.
Lemma floor_spec x : ffloor x <= x < ffloor x + 1.
Proof. unfold ffloor. destruct (base_Int_part x). lra. Qed.
Lemma floor_unique x z : IZR z <= x < IZR z + 1 -> Int_part x = z.
Proof.
  intros [A B]. destruct (base_Int_part x) as [U V].
  assert ((Int_part x < z + 1)%Z) by (apply lt_IZR; rewrite plus_IZR; lra). assert ((z < Int_part x + 1)%Z) by (apply lt_IZR; rewrite plus_IZR; lra). lia.
Qed.

(** ** Bernoulli *)
(** expectation of f under the returned mass function *)
Definition bern_E (p : R) (f : R -> R) : option R :=
  match bernoulli_pmf p 0, bernoulli_pmf p 1 with
  | Ret a, Ret b => Some (a * f 0 + b * f 1)
  | _, _ => None
  end.
Lemma bern_pmf p : bernoulli_pmf p 0 = Ret (1 - p) /\ bernoulli_pmf p 1 = Ret p.
Proof.
  assert (T0 : tz 0 = 0%Z) by (apply (tz_INR 0)). assert (T1 : tz 1 = 1%Z) by (apply (tz_INR 1)).
  unfold bernoulli_pmf, powi. rewrite T0, T1. split.
  - destruct (Reqb_spec 0 0) as [_|N]; [|exfalso; apply N; reflexivity]. simpl. f_equal. ring.
  - destruct (Reqb_spec 1 0); [lra|]. destruct (Reqb_spec 1 1) as [_|N]; [|exfalso; apply N; reflexivity]. simpl. f_equal. ring.
Qed.
Lemma bern_E_val p f : bern_E p f = Some ((1 - p) * f 0 + p * f 1).
Proof. unfold bern_E. destruct (bern_pmf p) as [-> ->]. reflexivity. Qed.

Lemma cexp_it t : cexp (it t) = (cos t, sin t).
Proof. unfold cexp, it. simpl. rewrite exp_0. f_equal; ring. Qed.

(** The mass function is a probability, and the reported mean, variance, moment
    generating function and characteristic function are its own. *)
Theorem bernoulli_moments : forall p, bernoulli_new p = Ret p ->
  (exists a b, bernoulli_pmf p 0 = Ret a /\ bernoulli_pmf p 1 = Ret b /\ 0 <= a /\ 0 <= b /\ a + b = 1) /\
  bern_E p (fun x => x) = Some (bernoulli_mean p) /\
  bern_E p (fun x => (x - bernoulli_mean p) ^ 2) = Some (bernoulli_variance p) /\
  forall t, bern_E p (fun x => exp (t * x)) = Some (bernoulli_mgf p t) /\
    bern_E p (fun x => cos (t * x)) = Some (fst (bernoulli_cf p t)) /\
    bern_E p (fun x => sin (t * x)) = Some (snd (bernoulli_cf p t)).
Proof.
  intros p H. unfold bernoulli_new, unit_interval in H.
  destruct (Rleb_spec 0 p) as [A|]; [|discriminate]. destruct (Rleb_spec p 1) as [B|]; [|discriminate].
  split; [exists (1 - p), p; destruct (bern_pmf p) as [-> ->]; repeat split; lra|].
  rewrite !bern_E_val. split; [f_equal; unfold bernoulli_mean; ring|]. split; [f_equal; unfold bernoulli_mean, bernoulli_variance; ring|].
  intros t. rewrite !bern_E_val. rewrite Rmult_0_r, Rmult_1_r, exp_0, cos_0, sin_0. unfold bernoulli_mgf, bernoulli_cf. rewrite cexp_it. simpl.
  repeat split; f_equal; ring.
Qed.
Print Assumptions bernoulli_moments.

(** Skewness, excess kurtosis and entropy are those of the mass function. *)
Theorem bernoulli_shape : forall p, 0 < p < 1 ->
  (exists s e, bernoulli_skewness p = Some s /\ bern_E p (fun x => (x - p) ^ 3) = Some e /\ s = e / sqrt (bernoulli_variance p) ^ 3) /\
  (exists s e, bernoulli_kurtosis p = Some s /\ bern_E p (fun x => (x - p) ^ 4) = Some e /\ s = e / bernoulli_variance p ^ 2 - 3) /\
  bernoulli_entropy p = Some (- ((1 - p) * ln (1 - p) + p * ln p)).
Proof.
  intros p Hp. assert (V : 0 < p * (1 - p)) by nra. assert (S : 0 < sqrt (p * (1 - p))) by (apply sqrt_lt_R0, V).
  assert (Q : sqrt (p * (1 - p)) * sqrt (p * (1 - p)) = p * (1 - p)) by (apply sqrt_sqrt; lra).
  split; [|split].
  - unfold bernoulli_skewness, fdiv. destruct (Reqb_spec (sqrt (p * (1 - p))) 0); [lra|]. rewrite bern_E_val. eexists _, _. repeat split.
    unfold bernoulli_variance. set (s := sqrt (p * (1 - p))) in *.
    replace ((1 - p) * (0 - p) ^ 3 + p * (1 - p) ^ 3) with ((s * s) * ((1 - p) - p)) by (rewrite Q; ring). field. lra.
  - unfold bernoulli_kurtosis, fdiv. destruct (Reqb_spec (p * (1 - p)) 0); [lra|]. rewrite bern_E_val. eexists _, _. repeat split.
    unfold bernoulli_variance. field. lra.
  - unfold bernoulli_entropy. destruct (Reqb_spec p 0); [lra|]. destruct (Reqb_spec p 1); [lra|]. simpl. f_equal. ring.
Qed.
Print Assumptions bernoulli_shape.

(** The median splits the mass, the mode has the largest mass. *)
Theorem bernoulli_centre : forall p, 0 <= p <= 1 ->
  (bernoulli_median p = 0 /\ 1 / 2 <= 1 - p \/ bernoulli_median p = 1 /\ 1 / 2 <= p) /\
  (bernoulli_mode p = 0 /\ p <= 1 - p \/ bernoulli_mode p = 1 /\ 1 - p <= p).
Proof.
  intros p Hp. unfold bernoulli_median, bernoulli_mode. split.
  - destruct (Rltb_spec p (1 / 2)); [left|right]; split; lra.
  - destruct (Rleb_spec p (1 / 2)); [left|right]; split; lra.
Qed.
Print Assumptions bernoulli_centre.

(** From 0 on, and up to -1, the distribution function adds up the mass. *)
Theorem bernoulli_cdf_sums : forall p x, 0 <= x \/ x <= -1 ->
  bernoulli_cdf p x = (if Rleb 0 x then 1 - p else 0) + (if Rleb 1 x then p else 0).
Proof.
  intros p x Hx. unfold bernoulli_cdf, tz. destruct (Rleb_spec 0 x) as [P|N].
  - destruct (base_Int_part x) as [A B]. assert (H0 : (0 < Int_part x + 1)%Z) by (apply lt_IZR; rewrite plus_IZR; lra).
    destruct (Z.ltb_spec (Int_part x) 0); [lia|]. destruct (Z.ltb_spec (Int_part x) 1) as [L|L]; destruct (Rleb_spec 1 x) as [Q|Q]; try lra.
    + assert (Int_part x <= 0)%Z by lia. apply IZR_le in H1. lra.
    + apply IZR_le in L. lra.
  - destruct (base_Int_part (- x)) as [A B]. assert (H0 : (0 < Int_part (- x))%Z) by (apply lt_IZR; assert (1 <= - x) by lra; assert (0 < IZR (Int_part (- x)) + 0) by lra; lra).
    destruct (Z.ltb_spec (- Int_part (- x)) 0); [|lia]. destruct (Rleb_spec 1 x); lra.
Qed.
Print Assumptions bernoulli_cdf_sums.
(** Finding: between -1 and 0 the distribution function is 1 - p, not 0. *)
Theorem bernoulli_cdf_negative_refuted : forall p x, -1 < x < 0 -> bernoulli_cdf p x = 1 - p.
Proof.
  intros p x Hx. unfold bernoulli_cdf, tz. destruct (Rleb_spec 0 x); [lra|].
  rewrite (floor_unique (- x) 0) by (simpl; lra). reflexivity.
Qed.
Print Assumptions bernoulli_cdf_negative_refuted.

(** The quantile is the least outcome whose distribution function reaches u ... *)
Theorem bernoulli_quantile : forall p u, 0 <= p <= 1 -> 0 < u <= 1 -> u <> 1 - p ->
  exists k, bernoulli_inv_cdf p u = Ret k /\ (k = 0 \/ k = 1) /\ u <= bernoulli_cdf p k /\ (k = 1 -> bernoulli_cdf p 0 < u).
Proof.
  intros p u Hp Hu Hn. unfold bernoulli_inv_cdf, unit_interval. destruct (Rleb_spec 0 u); [|lra]. destruct (Rleb_spec u 1); [|lra]. simpl.
  rewrite !bernoulli_cdf_sums by (left; lra). destruct (Rltb_spec u (1 - p)).
  - exists 0. split; [reflexivity|]. split; [left; reflexivity|]. rewrite bernoulli_cdf_sums by (left; lra).
    destruct (Rleb_spec 0 0); [|lra]. destruct (Rleb_spec 1 0); [lra|]. split; lra.
  - exists 1. split; [reflexivity|]. split; [right; reflexivity|]. rewrite bernoulli_cdf_sums by (left; lra).
    destruct (Rleb_spec 0 1); [|lra]. destruct (Rleb_spec 1 1); [|lra]. destruct (Rleb_spec 0 0); [|lra]. destruct (Rleb_spec 1 0); [lra|]. split; [lra|].
    intros _. lra.
Qed.
Print Assumptions bernoulli_quantile.
(** ... except at u = 1 - p.  Finding: there 1 is returned although 0 suffices. *)
Theorem bernoulli_quantile_refuted : forall p, 0 < p < 1 ->
  bernoulli_inv_cdf p (1 - p) = Ret 1 /\ bernoulli_cdf p 0 = 1 - p.
Proof.
  intros p Hp. split.
  - unfold bernoulli_inv_cdf, unit_interval. destruct (Rleb_spec 0 (1 - p)); [|lra]. destruct (Rleb_spec (1 - p) 1); [|lra]. simpl.
    destruct (Rltb_spec (1 - p) (1 - p)); [lra|reflexivity].
  - rewrite bernoulli_cdf_sums by (left; lra). destruct (Rleb_spec 0 0); [|lra]. destruct (Rleb_spec 1 0); lra.
Qed.
Print Assumptions bernoulli_quantile_refuted.
Example bernoulli_case : bernoulli_new (1 / 4) = Ret (1 / 4) /\ bernoulli_inv_cdf (1 / 4) (1 / 2) = Ret 0.
Proof.
  unfold bernoulli_new, bernoulli_inv_cdf, unit_interval. destruct (Rleb_spec 0 (1 / 4)); [|lra]. destruct (Rleb_spec (1 / 4) 1); [|lra].
  destruct (Rleb_spec 0 (1 / 2)); [|lra]. destruct (Rleb_spec (1 / 2) 1); [|lra]. destruct (Rltb_spec (1 / 2) (1 - 1 / 4)); [split; reflexivity|lra].
Qed.

(** ** Binomial *)
(** textbook probability of k successes; [Binomial.C] is n! / (k! (n-k)!) *)
Definition binom (n : nat) (p : R) (k : nat) : R := Binomial.C n k * p ^ k * (1 - p) ^ (n - k).
(** expectation *)
Definition binom_E (n : nat) (p : R) (f : R -> R) : R := bs (S n) (fun k => binom n p k * f (INR k)).

Fixpoint cb (n k : nat) : nat :=
  match n, k with
  | _, O => 1
  | O, S _ => O
  | S m, S j => cb m j + cb m (S j)
  end.
Lemma cb_gt n : forall k, (n < k)%nat -> cb n k = 0%nat.
Proof. induction n as [|n IH]; intros [|k] H; try lia; [reflexivity|]. simpl. rewrite !IH by lia. reflexivity. Qed.
Lemma cb_pos n : forall k, (k <= n)%nat -> (0 < cb n k)%nat.
Proof. induction n as [|n IH]; intros [|k] H; simpl; try lia. pose proof (IH k ltac:(lia)). lia. Qed.
Lemma cb_fact n : forall k, (k <= n)%nat -> (cb n k * (fact k * fact (n - k)) = fact n)%nat.
Proof.
  induction n as [|n IH]; intros [|k] H; try lia; [reflexivity|simpl cb; simpl (fact 0); rewrite Nat.sub_0_r; lia|].
  change (cb (S n) (S k)) with (cb n k + cb n (S k))%nat. change (S n - S k)%nat with (n - k)%nat.
  rewrite Nat.mul_add_distr_r. replace (fact (S k)) with (S k * fact k)%nat by reflexivity.
  replace (cb n k * (S k * fact k * fact (n - k)))%nat with (S k * (cb n k * (fact k * fact (n - k))))%nat by ring.
  rewrite IH by lia. destruct (Nat.eq_dec k n) as [->|N].
  - rewrite (cb_gt n (S n)) by lia. replace (fact (S n)) with (S n * fact n)%nat by reflexivity. lia.
  - specialize (IH (S k) ltac:(lia)). replace (n - k)%nat with (S (n - S k)) by lia.
    replace (fact (S (n - S k))) with (S (n - S k) * fact (n - S k))%nat by reflexivity.
    replace (cb n (S k) * (S k * fact k * (S (n - S k) * fact (n - S k))))%nat with (S (n - S k) * (cb n (S k) * (S k * fact k * fact (n - S k))))%nat by ring.
    replace (S k * fact k)%nat with (fact (S k)) by reflexivity. rewrite IH. replace (fact (S n)) with (S n * fact n)%nat by reflexivity.
    rewrite <- Nat.mul_add_distr_r. f_equal. lia.
Qed.
Lemma C_cb n k : (k <= n)%nat -> Binomial.C n k = INR (cb n k).
Proof.
  intros H. unfold Binomial.C. rewrite <- (cb_fact n k H), !mult_INR. field. split; apply INR_fact_neq_0.
Qed.

(** weights by repeated trials *)
Fixpoint tw (p : R) (n k : nat) : R :=
  match n, k with
  | O, O => 1
  | O, S _ => 0
  | S m, O => (1 - p) * tw p m O
  | S m, S j => (1 - p) * tw p m (S j) + p * tw p m j
  end.
Lemma tw_gt p n : forall k, (n < k)%nat -> tw p n k = 0.
Proof. induction n as [|n IH]; intros [|k] H; try lia; [reflexivity|]. simpl. rewrite !IH by lia. ring. Qed.
Lemma tw_cb p n : forall k, (k <= n)%nat -> tw p n k = INR (cb n k) * p ^ k * (1 - p) ^ (n - k).
Proof.
  induction n as [|n IH]; intros [|k] H; try lia; [simpl; ring| |].
  - simpl tw. rewrite IH by lia. replace (cb n 0) with 1%nat by (destruct n; reflexivity). rewrite !Nat.sub_0_r. simpl. ring.
  - change (cb (S n) (S k)) with (cb n k + cb n (S k))%nat. rewrite plus_INR. cbn [tw]. rewrite (IH k) by lia. change (S n - S k)%nat with (n - k)%nat.
    destruct (Nat.eq_dec k n) as [->|N].
    + rewrite (tw_gt p n (S n)), (cb_gt n (S n)) by lia. simpl. ring.
    + rewrite (IH (S k)) by lia. replace (n - k)%nat with (S (n - S k)) by lia. simpl. ring.
Qed.
Lemma binom_tw n p k : (k <= n)%nat -> binom n p k = tw p n k.
Proof. intros H. unfold binom. rewrite tw_cb, C_cb by exact H. reflexivity. Qed.
Definition twE (n : nat) (p : R) (f : nat -> R) : R := bs (S n) (fun k => tw p n k * f k).
Lemma twE_S n p f : twE (S n) p f = (1 - p) * twE n p f + p * twE n p (fun k => f (S k)).
Proof.
  unfold twE. rewrite (bs_shift (S n)). cbn [tw]. rewrite (bs_ext (S n) (fun i => _) (fun i => (1 - p) * (tw p n (S i) * f (S i)) + p * (tw p n i * f (S i)))) by (intros; ring).
  rewrite bs_plus, !bs_scal. rewrite (bs_shift n (fun k => tw p n k * f k)). cbn [bs]. rewrite (tw_gt p n (S n)) by lia. ring.
Qed.
Lemma twE_lin n p a b f g : twE n p (fun k => a * f k + b * g k) = a * twE n p f + b * twE n p g.
Proof. unfold twE. rewrite <- !bs_scal, <- bs_plus. apply bs_ext. intros; ring. Qed.
Lemma twE_ext n p f g : (forall k, f k = g k) -> twE n p f = twE n p g.
Proof. intros H. apply bs_ext. intros. rewrite H. reflexivity. Qed.
Lemma binom_E_tw n p f : binom_E n p f = twE n p (fun k => f (INR k)).
Proof. unfold binom_E, twE. apply bs_ext. intros k Hk. rewrite binom_tw by lia. reflexivity. Qed.
Lemma tw1 n p : twE n p (fun _ => 1) = 1.
Proof. induction n as [|n IH]; [unfold twE; simpl; ring|]. rewrite twE_S, IH. ring. Qed.
Lemma twk1 n p : twE n p INR = INR n * p.
Proof.
  induction n as [|n IH]; [unfold twE; simpl; ring|]. rewrite twE_S, IH.
  rewrite (twE_ext n p (fun k => INR (S k)) (fun k => 1 * INR k + 1 * 1)) by (intros; rewrite S_INR; ring). rewrite twE_lin, IH, tw1, S_INR. ring.
Qed.
Lemma twk2 n p : twE n p (fun k => INR k ^ 2) = INR n * p * (1 - p) + (INR n * p) ^ 2.
Proof.
  induction n as [|n IH]; [unfold twE; simpl; ring|]. rewrite twE_S, IH.
  rewrite (twE_ext n p (fun k => INR (S k) ^ 2) (fun k => 1 * INR k ^ 2 + 1 * (2 * INR k + 1 * 1))) by (intros; rewrite S_INR; ring).
  rewrite twE_lin, twE_lin, IH, twk1, tw1, S_INR. ring.
Qed.
Lemma twk3 n p : twE n p (fun k => INR k ^ 3) = INR n * p + 3 * INR n * (INR n - 1) * p ^ 2 + INR n * (INR n - 1) * (INR n - 2) * p ^ 3.
Proof.
  induction n as [|n IH]; [unfold twE; simpl; ring|]. rewrite twE_S, IH.
  rewrite (twE_ext n p (fun k => INR (S k) ^ 3) (fun k => 1 * INR k ^ 3 + 1 * (3 * INR k ^ 2 + 1 * (3 * INR k + 1 * 1)))) by (intros; rewrite S_INR; ring).
  rewrite !twE_lin, IH, twk2, twk1, tw1, S_INR. ring.
Qed.
Lemma twk4 n p : twE n p (fun k => INR k ^ 4) = INR n * p + 7 * INR n * (INR n - 1) * p ^ 2 + 6 * INR n * (INR n - 1) * (INR n - 2) * p ^ 3 + INR n * (INR n - 1) * (INR n - 2) * (INR n - 3) * p ^ 4.
Proof.
  induction n as [|n IH]; [unfold twE; simpl; ring|]. rewrite twE_S, IH.
  rewrite (twE_ext n p (fun k => INR (S k) ^ 4) (fun k => 1 * INR k ^ 4 + 1 * (4 * INR k ^ 3 + 1 * (6 * INR k ^ 2 + 1 * (4 * INR k + 1 * 1))))) by (intros; rewrite S_INR; ring).
  rewrite !twE_lin, IH, twk3, twk2, twk1, tw1, S_INR. ring.
Qed.

(** Total mass, mean, variance, moment generating and characteristic functions
    of the binomial distribution are those reported, for any number of trials. *)
Lemma twcf n p t : (twE n p (fun k => cos (t * INR k)), twE n p (fun k => sin (t * INR k))) = cpow (bernoulli_cf p t) n.
Proof.
  induction n as [|n IH].
  - unfold twE. cbn [bs tw INR cpow]. rewrite Rmult_0_r, cos_0, sin_0. unfold RtoC. f_equal; ring.
  - cbn [cpow]. rewrite <- IH. rewrite !twE_S.
    rewrite (twE_ext n p (fun k => cos (t * INR (S k))) (fun k => cos t * cos (t * INR k) + (- sin t) * sin (t * INR k))) by (intros; rewrite S_INR, Rmult_plus_distr_l, Rmult_1_r, cos_plus; ring).
    rewrite (twE_ext n p (fun k => sin (t * INR (S k))) (fun k => sin t * cos (t * INR k) + cos t * sin (t * INR k))) by (intros; rewrite S_INR, Rmult_plus_distr_l, Rmult_1_r, sin_plus; ring).
    rewrite !twE_lin. unfold bernoulli_cf. rewrite cexp_it. unfold Cmult, Cplus, RtoC. cbn [fst snd]. f_equal; ring.
Qed.
Theorem binomial_moments : forall n p, binomial_new n p = Ret (n, p) ->
  (forall k, 0 <= binom n p k) /\
  binom_E n p (fun _ => 1) = 1 /\
  binom_E n p (fun x => x) = binomial_mean n p /\
  binom_E n p (fun x => (x - binomial_mean n p) ^ 2) = binomial_variance n p /\
  forall t, binom_E n p (fun x => exp (t * x)) = binomial_mgf n p t /\
    binom_E n p (fun x => cos (t * x)) = fst (binomial_cf n p t) /\
    binom_E n p (fun x => sin (t * x)) = snd (binomial_cf n p t).
Proof.
  intros n p H. unfold binomial_new, unit_interval in H.
  destruct (Rleb_spec 0 p) as [A|]; [|discriminate]. destruct (Rleb_spec p 1) as [B|]; [|discriminate].
  split. { intros k. unfold binom, Binomial.C. repeat apply Rmult_le_pos; try (apply pow_le; lra); try apply pos_INR. left. apply Rinv_0_lt_compat, Rmult_lt_0_compat; apply INR_fact_lt_0. }
  rewrite !binom_E_tw. split; [apply tw1|]. split; [apply twk1|]. split.
  - unfold binomial_mean, binomial_variance. rewrite (twE_ext n p _ (fun k => 1 * INR k ^ 2 + 1 * ((- 2 * (INR n * p)) * INR k + (INR n * p) ^ 2 * 1))) by (intros; ring).
    rewrite !twE_lin, twk2, twk1, tw1. ring.
  - intros t. rewrite !binom_E_tw. split; [|unfold binomial_cf; rewrite <- twcf; split; reflexivity].
    unfold binomial_mgf. clear H. induction n as [|n IH]; [unfold twE; simpl; rewrite Rmult_0_r, exp_0; ring|].
    rewrite twE_S, IH. rewrite (twE_ext n p _ (fun k => exp t * exp (t * INR k) + 0 * 1)) by (intros; rewrite S_INR, Rmult_plus_distr_l, exp_plus, Rmult_1_r; ring).
    rewrite twE_lin, IH, tw1. simpl. ring.
Qed.
Print Assumptions binomial_moments.

(** Skewness and excess kurtosis. *)
Theorem binomial_shape : forall n p, (0 < n)%nat -> 0 < p < 1 ->
  (exists s, binomial_skewness n p = Some s /\ s = binom_E n p (fun x => (x - binomial_mean n p) ^ 3) / sqrt (binomial_variance n p) ^ 3) /\
  (exists s, binomial_kurtosis n p = Some s /\ s = binom_E n p (fun x => (x - binomial_mean n p) ^ 4) / binomial_variance n p ^ 2 - 3).
Proof.
  intros n p Hn Hp. assert (N : 0 < INR n) by (apply lt_0_INR, Hn).
  assert (V : 0 < INR n * p * (1 - p)) by (apply Rmult_lt_0_compat; [apply Rmult_lt_0_compat|]; lra).
  assert (S : 0 < sqrt (INR n * p * (1 - p))) by (apply sqrt_lt_R0, V).
  assert (Q : sqrt (INR n * p * (1 - p)) * sqrt (INR n * p * (1 - p)) = INR n * p * (1 - p)) by (apply sqrt_sqrt; lra).
  rewrite !binom_E_tw. unfold binomial_skewness, binomial_kurtosis, binomial_mean, binomial_variance, fdiv.
  rewrite (twE_ext n p _ (fun k => 1 * INR k ^ 3 + 1 * ((- 3 * (INR n * p)) * INR k ^ 2 + 1 * (3 * (INR n * p) ^ 2 * INR k + (- (INR n * p) ^ 3) * 1)))) by (intros; ring).
  rewrite !twE_lin, twk3, twk2, twk1, tw1.
  rewrite (twE_ext n p _ (fun k => 1 * INR k ^ 4 + 1 * ((- 4 * (INR n * p)) * INR k ^ 3 + 1 * (6 * (INR n * p) ^ 2 * INR k ^ 2 + 1 * ((- 4 * (INR n * p) ^ 3) * INR k + (INR n * p) ^ 4 * 1))))) by (intros; ring).
  rewrite !twE_lin, twk4, twk3, twk2, twk1, tw1. split.
  - destruct (Reqb_spec (sqrt (INR n * p * (1 - p))) 0); [lra|]. eexists. split; [reflexivity|]. set (s := sqrt (INR n * p * (1 - p))) in *.
    match goal with |- _ = ?e / _ => replace e with ((s * s) * (1 - 2 * p)) by (rewrite Q; ring) end. field. lra.
  - destruct (Reqb_spec (INR n * p * (1 - p)) 0); [lra|]. eexists. split; [reflexivity|]. field. lra.
Qed.
Print Assumptions binomial_shape.

(** ** The mass function of the code *)
Fixpoint zfact (n : nat) : Z := match n with O => 1 | S k => Z.of_nat n * zfact k end%Z.
Lemma zfact_fact n : Z.of_nat (fact n) = zfact n.
Proof. induction n as [|n IH]; [reflexivity|]. cbn [zfact]. rewrite <- IH, <- Nat2Z.inj_mul. reflexivity. Qed.
Lemma checked_ok bound m n : (zfact m < bound)%Z -> (n <= m)%nat -> checked_fact bound n = Ret (fact n).
Proof.
  intros B H. unfold checked_fact. destruct (Z.ltb_spec (Z.of_nat (fact n)) bound) as [|G]; [reflexivity|]. exfalso.
  pose proof (fact_le n m H) as L. apply Nat2Z.inj_le in L. rewrite (zfact_fact m) in L. lia.
Qed.
Lemma checked_over bound m n : (bound <= zfact m)%Z -> (m <= n)%nat -> checked_fact bound n = Panic.
Proof.
  intros B H. unfold checked_fact. destruct (Z.ltb_spec (Z.of_nat (fact n)) bound) as [G|]; [|reflexivity]. exfalso.
  pose proof (fact_le m n H) as L. apply Nat2Z.inj_le in L. rewrite (zfact_fact m) in L. lia.
Qed.
Lemma f12 : (zfact 12 < u32_bound)%Z. Proof. reflexivity. Qed.
Lemma f13 : (u32_bound <= zfact 13)%Z. Proof. unfold Z.le. vm_compute. discriminate. Qed.

(** Up to twelve trials the mass function is the textbook one ... *)
Theorem binomial_pmf_exact : forall n p k, (n <= 12)%nat -> (k <= n)%nat -> binomial_pmf n p (INR k) = Ret (binom n p k).
Proof.
  intros n p k Hn Hk. unfold binomial_pmf. rewrite as_usize_INR, tz_INR. destruct (Nat.leb_spec k n); [|lia].
  rewrite !(checked_ok u32_bound 12 _ f12) by lia. cbn [bind].
  pose proof (cb_fact n k Hk) as E. pose proof (cb_pos n k Hk) as P. pose proof (lt_O_fact k) as P1. pose proof (lt_O_fact (n - k)) as P2.
  destruct (Z.ltb_spec (Z.of_nat (fact k) * Z.of_nat (fact (n - k))) u32_bound) as [_|G].
  - f_equal. unfold powi, binom. rewrite <- pow_powerRZ, C_cb by exact Hk. f_equal. f_equal. f_equal. rewrite <- E. apply Nat.div_mul. nia.
  - exfalso. rewrite <- Nat2Z.inj_mul in G. assert (L : (fact k * fact (n - k) <= fact n)%nat) by nia. apply Nat2Z.inj_le in L.
    pose proof (fact_le n 12 Hn) as L2. apply Nat2Z.inj_le in L2. rewrite (zfact_fact 12) in L2. pose proof f12. lia.
Qed.
Print Assumptions binomial_pmf_exact.
(** ... Finding: from thirteen trials on every call overflows. *)
Theorem binomial_pmf_overflow_refuted : forall n p x, (13 <= n)%nat -> binomial_pmf n p x = Panic.
Proof.
  intros n p x Hn. unfold binomial_pmf. destruct (Nat.leb (as_usize x) n); [|reflexivity]. rewrite (checked_over u32_bound 13 n f13 Hn). reflexivity.
Qed.
Print Assumptions binomial_pmf_overflow_refuted.

(** ** Distribution function and quantile *)
(** the regularised incomplete beta function at positive integers *)
Definition beta_spec (beta_reg : R -> R -> R -> R) : Prop :=
  forall a b x, 0 <= x <= 1 ->
  beta_reg (INR (S a)) (INR (S b)) x = RInt (fun t => t ^ a * (1 - t) ^ b) 0 x / RInt (fun t => t ^ a * (1 - t) ^ b) 0 1.
Definition binom_F (n : nat) (p : R) (k : nat) : R := bs (S k) (binom n p).

Definition cc (n k : nat) : R := INR (fact n) / (INR (fact k) * INR (fact (n - S k))).
Lemma cc_left n k : (S k <= n)%nat -> Binomial.C n k * INR (n - k) = cc n k.
Proof.
  intros H. unfold Binomial.C, cc. replace (n - k)%nat with (S (n - S k)) by lia.
  replace (fact (S (n - S k))) with (S (n - S k) * fact (n - S k))%nat by reflexivity. rewrite mult_INR. field.
  repeat split; try apply INR_fact_neq_0. apply not_0_INR. lia.
Qed.
Lemma cc_right n k : (S k <= n)%nat -> Binomial.C n (S k) * INR (S k) = cc n k.
Proof.
  intros H. unfold Binomial.C, cc. replace (fact (S k)) with (S k * fact k)%nat by reflexivity. rewrite mult_INR. field.
  repeat split; try apply INR_fact_neq_0. apply not_0_INR. lia.
Qed.
(** as a function of q = 1 - p *)
Definition lower (n k : nat) (q : R) : R := bs (S k) (fun i => Binomial.C n i * (1 - q) ^ i * q ^ (n - i)).
Lemma lower_derive n k q : (S k <= n)%nat -> is_derive (lower n k) q (cc n k * (q ^ (n - S k) * (1 - q) ^ k)).
Proof.
  induction k as [|k IH]; intros H.
  - apply is_derive_ext with (fun q => Binomial.C n 0 * q ^ n).
    { intros t. unfold lower. cbn [bs]. rewrite Nat.sub_0_r. simpl pow. match goal with |- ?u = ?v => change (@eq R u v) end. ring. }
    evar_last. { apply is_derive_scal. apply is_derive_pow. apply is_derive_id. }
    rewrite <- (cc_left n 0) by exact H. rewrite Nat.sub_0_r. replace (Init.Nat.pred n) with (n - 1)%nat by lia.
    change (@one R_AbsRing) with 1. match goal with |- ?u = ?v => change (@eq R u v) end. simpl pow. ring.
  - apply is_derive_ext with (fun q => lower n k q + Binomial.C n (S k) * (1 - q) ^ S k * q ^ (n - S k)); [reflexivity|].
    assert (T : is_derive (fun q => Binomial.C n (S k) * (1 - q) ^ S k * q ^ (n - S k)) q
      (Binomial.C n (S k) * (- (INR (S k) * (1 - q) ^ k) * q ^ (n - S k) + (1 - q) ^ S k * (INR (n - S k) * q ^ (n - S (S k)))))).
    { generalize (Binomial.C n (S k)) as c. intros c. auto_derive; [exact I|]. replace (Init.Nat.pred (n - S k)) with (n - S (S k))%nat by lia.
      rewrite S_INR. replace (Init.Nat.pred (S k)) with k by reflexivity. simpl pow. unfold Rminus. destruct k; simpl INR; ring. }
    replace (cc n (S k) * (q ^ (n - S (S k)) * (1 - q) ^ S k)) with (cc n k * (q ^ (n - S k) * (1 - q) ^ k) + (Binomial.C n (S k) * (- (INR (S k) * (1 - q) ^ k) * q ^ (n - S k) + (1 - q) ^ S k * (INR (n - S k) * q ^ (n - S (S k)))))).
    { apply (is_derive_plus (K:=R_AbsRing) (V:=R_NormedModule)); [apply IH; lia|exact T]. }
    rewrite <- (cc_right n k) by lia. rewrite <- (cc_left n (S k)) by lia. ring.
Qed.
Lemma poly_cont a b t : continuous (fun t => t ^ a * (1 - t) ^ b) t.
Proof. apply (ex_derive_continuous (K:=R_AbsRing) (V:=R_NormedModule)). auto_derive. exact I. Qed.
Lemma lower_int n k q : (S k <= n)%nat -> cc n k * RInt (fun t => t ^ (n - S k) * (1 - t) ^ k) 0 q = lower n k q - lower n k 0.
Proof.
  intros H. assert (I : is_RInt (fun t => cc n k * (t ^ (n - S k) * (1 - t) ^ k)) 0 q (minus (lower n k q) (lower n k 0))).
  { apply (is_RInt_derive (V:=R_CompleteNormedModule) (lower n k)).
    - intros x _. apply lower_derive, H.
    - intros x _. apply (continuous_scal_r (K:=R_AbsRing) (V:=R_NormedModule) (cc n k)). apply poly_cont. }
  apply (is_RInt_unique (V:=R_CompleteNormedModule)) in I.
  rewrite <- (RInt_scal (V:=R_CompleteNormedModule)) by (apply (ex_RInt_continuous (V:=R_CompleteNormedModule)); intros z _; apply poly_cont).
  exact I.
Qed.
Lemma lower_0 n k : (S k <= n)%nat -> lower n k 0 = 0.
Proof. intros H. unfold lower. rewrite (bs_ext (S k) _ (fun _ => 0)); [apply bs_zero|]. intros i Hi. rewrite (pow_i (n - i)) by lia. ring. Qed.
Lemma lower_1 n k : lower n k 1 = 1.
Proof.
  unfold lower. rewrite bs_shift. rewrite (bs_ext k _ (fun _ => 0)), bs_zero by (intros i Hi; replace (1 - 1) with 0 by ring; rewrite (pow_i (S i)) by lia; ring).
  unfold Binomial.C. rewrite !Nat.sub_0_r, pow1. simpl. field. apply INR_fact_neq_0.
Qed.

(** Below the number of trials the distribution function adds up the mass ... *)
Theorem binomial_cdf_sums : forall beta_reg n p k, beta_spec beta_reg -> 0 <= p <= 1 -> (k < n)%nat ->
  binomial_cdf beta_reg n p (INR k) = Ret (binom_F n p k).
Proof.
  intros B n p k HB Hp Hk. unfold binomial_cdf. rewrite as_usize_INR. destruct (Nat.ltb_spec k n); [|lia]. f_equal.
  replace (n - k)%nat with (S (n - S k)) by lia. replace (1 + INR k) with (INR (S k)) by (rewrite S_INR; ring). rewrite HB by lra.
  pose proof (lower_int n k (1 - p) ltac:(lia)) as E. pose proof (lower_int n k 1 ltac:(lia)) as E1.
  rewrite lower_0 in E, E1 by lia. rewrite lower_1 in E1. rewrite Rminus_0_r in E, E1.
  set (a := RInt _ 0 (1 - p)) in *. set (b := RInt _ 0 1) in *.
  assert (F : binom_F n p k = lower n k (1 - p)). { apply bs_ext. intros i Hi. unfold binom. replace (1 - (1 - p)) with p by ring. reflexivity. }
  rewrite F, <- E. assert (cc n k <> 0) by (intro Z; rewrite Z in E1; lra). assert (b <> 0) by (intro Z; rewrite Z in E1; lra).
  apply Rmult_eq_reg_r with b; [|assumption]. unfold Rdiv. rewrite Rmult_assoc, Rinv_l by assumption. replace (cc n k * a * b) with (cc n k * b * a) by ring. rewrite E1. ring.
Qed.
Print Assumptions binomial_cdf_sums.
(** ... Finding: at the number of trials itself, where it should be 1, it panics. *)
Theorem binomial_cdf_top_refuted : forall beta_reg n p x, (n <= as_usize x)%nat ->
  binomial_cdf beta_reg n p x = Panic /\ binom_F n p n = 1.
Proof.
  intros B n p x H. split; [unfold binomial_cdf; destruct (Nat.ltb_spec (as_usize x) n); [lia|reflexivity]|].
  unfold binom_F. rewrite <- (tw1 n p). unfold twE. apply bs_ext. intros k Hk. rewrite binom_tw by lia. ring.
Qed.
Print Assumptions binomial_cdf_top_refuted.

(** The quantile is the least number of successes whose probability reaches u,
    when that is below the number of trials.  Finding: otherwise it panics, in
    particular at u = 1. *)
Lemma search_spec B n p u : beta_spec B -> 0 <= p <= 1 -> forall d k fuel, (k + d = n - 1)%nat -> (k < n)%nat -> (d < fuel)%nat ->
  (forall j, (j < k)%nat -> binom_F n p j < u) ->
  (exists m, (m < n)%nat /\ binomial_search B fuel n p u (INR k) (binom_F n p k) = Ret (INR m) /\ u <= binom_F n p m /\ forall j, (j < m)%nat -> binom_F n p j < u) \/
  (binomial_search B fuel n p u (INR k) (binom_F n p k) = Panic /\ binom_F n p (n - 1) < u).
Proof.
  intros HB Hp. induction d as [|d IH]; intros k fuel E Hk Hf Hj; (destruct fuel as [|fuel]; [lia|]); cbn [binomial_search];
    (destruct (Rltb_spec (binom_F n p k) u) as [L|L]; [|left; exists k; repeat split; [exact Hk|lra|exact Hj]]).
  - right. replace (INR k + 1) with (INR (S k)) by (rewrite S_INR; ring).
    rewrite (proj1 (binomial_cdf_top_refuted B n p (INR (S k)) ltac:(rewrite as_usize_INR; lia))). split; [reflexivity|]. replace (n - 1)%nat with k by lia. exact L.
  - replace (INR k + 1) with (INR (S k)) by (rewrite S_INR; ring). rewrite (binomial_cdf_sums B n p (S k) HB Hp ltac:(lia)). cbn [bind].
    apply IH; try lia. intros j H. destruct (Nat.eq_dec j k) as [->|]; [exact L|apply Hj; lia].
Qed.
Theorem binomial_quantile : forall beta_reg fuel n p u, beta_spec beta_reg -> 0 <= p <= 1 -> 0 <= u <= 1 -> (0 < n <= fuel)%nat ->
  (exists m, (m < n)%nat /\ binomial_inv_cdf beta_reg fuel n p u = Ret (INR m) /\ u <= binom_F n p m /\ forall j, (j < m)%nat -> binom_F n p j < u) \/
  (binomial_inv_cdf beta_reg fuel n p u = Panic /\ binom_F n p (n - 1) < u).
Proof.
  intros B fuel n p u HB Hp Hu Hn. unfold binomial_inv_cdf, unit_interval. destruct (Rleb_spec 0 u); [|lra]. destruct (Rleb_spec u 1); [|lra]. cbn [andb].
  assert (C0 : binomial_cdf B n p 0 = Ret (binom_F n p 0)) by exact (binomial_cdf_sums B n p 0 HB Hp ltac:(lia)). rewrite C0. cbn [bind].
  apply (search_spec B n p u HB Hp (n - 1) 0 fuel); try lia.
Qed.
Print Assumptions binomial_quantile.
Theorem binomial_quantile_one_refuted : forall beta_reg fuel n p, beta_spec beta_reg -> 0 < p <= 1 -> (0 < n <= fuel)%nat ->
  binomial_inv_cdf beta_reg fuel n p 1 = Panic.
Proof.
  intros B fuel n p HB Hp Hn. destruct (binomial_quantile B fuel n p 1 HB ltac:(lra) ltac:(lra) Hn) as [(m & Hm & _ & L & _)|[E _]]; [|exact E]. exfalso.
  assert (S1 : binom_F n p n = 1) by (apply (binomial_cdf_top_refuted B n p (INR n)); rewrite as_usize_INR; lia).
  assert (PN : 0 < binom n p n). { unfold binom. rewrite C_cb, Nat.sub_diag by lia. simpl. rewrite Rmult_1_r. apply Rmult_lt_0_compat; [apply lt_0_INR, cb_pos; lia|apply pow_lt; lra]. }
  assert (NN : forall k, 0 <= binom n p k).
  { intros k. unfold binom, Binomial.C. repeat apply Rmult_le_pos; try (apply pow_le; lra); try apply pos_INR. left. apply Rinv_0_lt_compat, Rmult_lt_0_compat; apply INR_fact_lt_0. }
  assert (M : forall d, binom_F n p m <= binom_F n p (m + d)).
  { induction d as [|d IH]; [rewrite Nat.add_0_r; lra|]. replace (m + S d)%nat with (S (m + d)) by lia. unfold binom_F in *. cbn [bs] in *. pose proof (NN (S (m + d))). lra. }
  specialize (M (n - 1 - m)%nat). replace (m + (n - 1 - m))%nat with (n - 1)%nat in M by lia. unfold binom_F in *. replace (S (n - 1)) with n in M by lia.
  cbn [bs] in S1. lra.
Qed.
Print Assumptions binomial_quantile_one_refuted.

(** ** Mode and median *)
Lemma unimodal (f : nat -> R) m n : (m <= n)%nat -> (forall k, (k < m)%nat -> f k <= f (S k)) -> (forall k, (m <= k < n)%nat -> f (S k) <= f k) ->
  forall k, (k <= n)%nat -> f k <= f m.
Proof.
  intros Hm U D k Hk. destruct (le_lt_dec m k) as [G|L].
  - assert (T : forall d, (m + d <= n)%nat -> f (m + d)%nat <= f m).
    { induction d as [|d IH]; intros H; [rewrite Nat.add_0_r; lra|]. replace (m + S d)%nat with (S (m + d)) by lia. eapply Rle_trans; [apply D; lia|apply IH; lia]. }
    replace k with (m + (k - m))%nat by lia. apply T. lia.
  - assert (T : forall d, (d <= m)%nat -> f (m - d)%nat <= f m).
    { induction d as [|d IH]; intros H; [rewrite Nat.sub_0_r; lra|]. eapply Rle_trans; [apply U; lia|]. replace (S (m - S d)) with (m - d)%nat by lia. apply IH. lia. }
    replace k with (m - (m - k))%nat by lia. apply T. lia.
Qed.
Lemma floor_nat x : 0 <= x -> exists m, ffloor x = INR m /\ INR m <= x < INR m + 1.
Proof.
  intros H. pose proof (floor_spec x) as F. unfold ffloor in *. assert (P : (0 < Int_part x + 1)%Z) by (apply lt_IZR; rewrite plus_IZR; lra).
  exists (Z.to_nat (Int_part x)). rewrite INR_IZR_INZ, Z2Nat.id by lia. split; [reflexivity|lra].
Qed.
Lemma binom_ratio n p k : (k < n)%nat -> binom n p (S k) * (INR (S k) * (1 - p)) = binom n p k * (INR (n - k) * p).
Proof.
  intros H. unfold binom. pose proof (cc_right n k ltac:(lia)) as A. pose proof (cc_left n k ltac:(lia)) as B.
  replace (n - k)%nat with (S (n - S k)) in * by lia. rewrite <- B in A. clear B.
  transitivity (Binomial.C n (S k) * INR (S k) * p ^ S k * (1 - p) ^ S (n - S k)); [simpl pow; ring|]. rewrite A. simpl pow. ring.
Qed.
Theorem binomial_mode_maximal : forall n p, 0 <= p < 1 ->
  exists m, binomial_mode n p = INR m /\ (m <= n)%nat /\ forall k, (k <= n)%nat -> binom n p k <= binom n p m.
Proof.
  intros n p Hp. unfold binomial_mode. assert (N : 0 <= INR n) by apply pos_INR. destruct (floor_nat ((INR n + 1) * p)) as (m & E & L & U); [apply Rmult_le_pos; lra|].
  exists m. split; [exact E|]. assert (Hm : (m <= n)%nat). { assert (INR m < INR (S n)) by (rewrite S_INR; nra). apply INR_lt in H. lia. }
  split; [exact Hm|]. assert (NN : forall k, 0 <= binom n p k).
  { intros k. unfold binom, Binomial.C. repeat apply Rmult_le_pos; try (apply pow_le; lra); try apply pos_INR. left. apply Rinv_0_lt_compat, Rmult_lt_0_compat; apply INR_fact_lt_0. }
  apply unimodal; [exact Hm| |].
  - intros k Hk. pose proof (binom_ratio n p k ltac:(lia)) as Q. pose proof (NN k). pose proof (NN (S k)).
    assert (K : INR (S k) <= INR m) by (apply le_INR; lia). rewrite minus_INR in Q by lia. assert (P : 0 < INR (S k)) by (apply lt_0_INR; lia).
    rewrite S_INR in *. assert (C : (INR k + 1) * (1 - p) <= (INR n - INR k) * p) by lra.
    apply Rmult_le_reg_r with ((INR k + 1) * (1 - p)); [apply Rmult_lt_0_compat; lra|]. rewrite Q. apply Rmult_le_compat_l; assumption.
  - intros k Hk. pose proof (binom_ratio n p k ltac:(lia)) as Q. pose proof (NN k). pose proof (NN (S k)).
    assert (K : INR m <= INR k) by (apply le_INR; lia). rewrite minus_INR in Q by lia. assert (P : 0 < INR (S k)) by (apply lt_0_INR; lia).
    rewrite S_INR in *. assert (C : (INR n - INR k) * p <= (INR k + 1) * (1 - p)) by lra.
    apply Rmult_le_reg_r with ((INR k + 1) * (1 - p)); [apply Rmult_lt_0_compat; lra|]. rewrite Q. apply Rmult_le_compat_l; assumption.
Qed.
Print Assumptions binomial_mode_maximal.
(** Finding: with certain success the reported mode is one more than the number of trials. *)
Theorem binomial_mode_certain_refuted : forall n, binomial_mode n 1 = INR n + 1.
Proof. intros n. unfold binomial_mode, ffloor. rewrite Rmult_1_r, <- S_INR, Int_part_INR, <- INR_IZR_INZ. reflexivity. Qed.
Print Assumptions binomial_mode_certain_refuted.
(** Finding: the reported median need not be one: one trial with success
    probability above one half has median 1, and 0 is reported. *)
Theorem binomial_median_refuted : forall p, 1 / 2 < p < 1 -> binomial_median 1 p = 0 /\ binom_F 1 p 0 < 1 / 2.
Proof.
  intros p Hp. split.
  - unfold binomial_median, binomial_mean, ffloor. simpl INR. rewrite (floor_unique (1 * p) 0); [reflexivity|simpl; lra].
  - unfold binom_F, binom, Binomial.C. simpl. lra.
Qed.
Print Assumptions binomial_median_refuted.

(** ** Concrete cases *)
Example binomial_case : binomial_new 3 (1 / 2) = Ret (3%nat, 1 / 2) /\ binomial_pmf 3 (1 / 2) (INR 1) = Ret (3 / 8) /\ binomial_mean 3 (1 / 2) = 3 / 2.
Proof.
  split; [|split].
  - unfold binomial_new, unit_interval. destruct (Rleb_spec 0 (1 / 2)); [|lra]. destruct (Rleb_spec (1 / 2) 1); [reflexivity|lra].
  - rewrite binomial_pmf_exact by lia. unfold binom, Binomial.C. simpl. f_equal. field.
  - unfold binomial_mean. simpl. lra.
Qed.
(** the hypothesis on the incomplete beta function can be met *)
Example beta_exists : exists B, beta_spec B.
Proof.
  exists (fun a b x => RInt (fun t => t ^ (as_usize a - 1) * (1 - t) ^ (as_usize b - 1)) 0 x / RInt (fun t => t ^ (as_usize a - 1) * (1 - t) ^ (as_usize b - 1)) 0 1).
  intros a b x Hx. rewrite !as_usize_INR. replace (S a - 1)%nat with a by lia. replace (S b - 1)%nat with b by lia. reflexivity.
Qed.
