(** C68: logistic regression. *)
From Coq Require Import Reals PeanoNat Bool Lra Lia.
From Coquelicot Require Import Coquelicot.
From Verif Require Import Res InterpModel InterpProofs MatLib ActModel ActProps RegModel.
Open Scope R_scope.

(** ** Specification: the log-likelihood of coefficients (intercept first) *)
Definition score_of (m : nat) (X : mat) (c : vec) (i : nat) : R := c O + bs m (fun j => X i j * c (S j)).
Definition log_lik (n m : nat) (X : mat) (y c : vec) : R :=
  bs n (fun i => y i * ln (sigmoid (score_of m X c i)) + (1 - y i) * ln (1 - sigmoid (score_of m X c i))).

Lemma score_mvec m X c i : mvec (S m) (insert_ones X) c i = score_of m X c i.
Proof. unfold mvec, score_of. rewrite bs_shift. unfold insert_ones. ring. Qed.
Lemma ln_sigmoid t : ln (sigmoid t) = t - softplus t.
Proof.
  pose proof (exp_pos t). assert (E : sigmoid t = exp t * / (1 + exp t)). { rewrite (proj1 (proj2 (proj2 (proj2 sigmoid_props)))). unfold Rdiv. rewrite (Rplus_comm (exp t)). reflexivity. }
  rewrite E, ln_mult, ln_exp, ln_Rinv by (try apply Rinv_0_lt_compat; lra). reflexivity.
Qed.
Lemma ln_1_sigmoid t : ln (1 - sigmoid t) = - softplus t.
Proof.
  rewrite <- (proj1 (proj2 (proj2 sigmoid_props))), ln_sigmoid. pose proof (relu_softplus_gelu_order t) as (_ & _ & S & _). lra.
Qed.
Lemma log_lik_alt n m X y c : log_lik n m X y c = bs n (fun i => y i * score_of m X c i - softplus (score_of m X c i)).
Proof. apply bs_ext. intros i Hi. rewrite ln_sigmoid, ln_1_sigmoid. ring. Qed.

Lemma softplus_derive t : is_derive softplus t (sigmoid t).
Proof. destruct (act_softplus t) as (d & _ & D & ->). exact D. Qed.
(** softplus lies above its tangents *)
Lemma softplus_convex a b : softplus a + sigmoid a * (b - a) <= softplus b.
Proof.
  destruct (MVT_gen softplus a b sigmoid) as (c & Hc & E).
  - intros x _. apply softplus_derive.
  - intros x _. apply continuity_pt_filterlim. apply (ex_derive_continuous softplus). exists (sigmoid x). apply softplus_derive.
  - assert (M : forall u v, u <= v -> sigmoid u <= sigmoid v) by (intros u v [H| ->]; [left; apply sigmoid_props, H|lra]).
    unfold Rmin, Rmax in Hc. destruct (Rle_dec a b); [pose proof (M a c (proj1 Hc)); nra|]. pose proof (M c a (proj2 Hc)). nra.
Qed.

(** gradient of the log-likelihood, as the code computes it (212) *)
Definition gradient (n m : nat) (X : mat) (y c : vec) : vec :=
  mvec n (tr (insert_ones X)) (fun i => y i - mu_of m (insert_ones X) c i).

Lemma concave n m X y c c' : log_lik n m X y c' <= log_lik n m X y c + dotn (S m) (fun j => c' j - c j) (gradient n m X y c).
Proof.
  unfold gradient. rewrite <- dot_tr, !log_lik_alt. unfold dotn. rewrite <- bs_plus. apply bs_le. intros i Hi.
  rewrite mvec_minus, !score_mvec. unfold mu_of. rewrite score_mvec.
  pose proof (softplus_convex (score_of m X c i) (score_of m X c' i)). nra.
Qed.

(** The vector X'(y - mu) of the algorithm is the gradient of the log-likelihood:
    along any direction h it gives the derivative. *)
Theorem logit_gradient : forall n m X y c h,
  is_derive (fun t => log_lik n m X y (fun j => c j + t * h j)) 0 (dotn (S m) h (gradient n m X y c)).
Proof.
  intros n m X y c h. unfold gradient. rewrite <- dot_tr. unfold dotn.
  apply is_derive_ext with (fun t => bs n (fun i => y i * (score_of m X c i + t * score_of m X h i) - softplus (score_of m X c i + t * score_of m X h i))).
  { intros t. rewrite log_lik_alt. apply bs_ext. intros i Hi. assert (E : score_of m X (fun j => c j + t * h j) i = score_of m X c i + t * score_of m X h i).
    { unfold score_of. rewrite (bs_ext m _ (fun j => X i j * c (S j) + t * (X i j * h (S j)))) by (intros; ring). rewrite bs_plus, bs_scal. ring. }
    rewrite E. reflexivity. }
  induction n as [|n IH]; simpl.
  - apply (is_derive_const (K:=R_AbsRing) (V:=R_NormedModule)).
  - apply (is_derive_plus (K:=R_AbsRing) (V:=R_NormedModule)); [exact IH|]. rewrite score_mvec. unfold mu_of. rewrite score_mvec.
    set (a := score_of m X c n). set (b := score_of m X h n).
    replace (b * (y n - sigmoid a)) with (y n * b - b * sigmoid a) by ring.
    apply (is_derive_minus (K:=R_AbsRing) (V:=R_NormedModule)); [auto_derive; [exact I|ring]|].
    apply (is_derive_comp softplus (fun t => a + t * b) 0 (sigmoid a) b).
    + replace (a + 0 * b) with a by ring. apply softplus_derive.
    + auto_derive; [exact I|ring].
Qed.
Print Assumptions logit_gradient.

(** the matrix X' W X of the algorithm (211) *)
Definition hessian (n m : nat) (X : mat) (c : vec) : mat :=
  mmul n (fun j i => tr (insert_ones X) j i * (mu_of m (insert_ones X) c i * (1 - mu_of m (insert_ones X) c i))) (insert_ones X).
(** ... is minus the derivative of that gradient. *)
Theorem logit_hessian : forall n m X y c h j, (j < S m)%nat ->
  is_derive (fun t => gradient n m X y (fun l => c l + t * h l) j) 0 (- mvec (S m) (hessian n m X c) h j).
Proof.
  intros n m X y c h j Hj. set (x := insert_ones X).
  assert (E : mvec (S m) (hessian n m X c) h j = bs n (fun i => x i j * (sigmoid (score_of m X c i) * (1 - sigmoid (score_of m X c i))) * score_of m X h i)).
  { unfold hessian. rewrite mvec_mmul. unfold mvec at 1. apply bs_ext. intros i Hi. rewrite score_mvec. unfold mu_of. rewrite score_mvec. reflexivity. }
  rewrite E. unfold gradient, mvec at 1. fold x.
  apply is_derive_ext with (fun t => bs n (fun i => x i j * (y i - sigmoid (score_of m X c i + t * score_of m X h i)))).
  { intros t. apply bs_ext. intros i Hi. unfold mu_of, x. rewrite score_mvec. assert (E2 : score_of m X (fun j => c j + t * h j) i = score_of m X c i + t * score_of m X h i).
    { unfold score_of. rewrite (bs_ext m _ (fun j => X i j * c (S j) + t * (X i j * h (S j)))) by (intros; ring). rewrite bs_plus, bs_scal. ring. }
    rewrite E2. reflexivity. }
  clear E. induction n as [|n IH]; simpl.
  - rewrite Ropp_0. apply (is_derive_const (K:=R_AbsRing) (V:=R_NormedModule)).
  - rewrite Ropp_plus_distr. apply (is_derive_plus (K:=R_AbsRing) (V:=R_NormedModule)); [exact IH|].
    set (a := score_of m X c n). set (b := score_of m X h n).
    apply is_derive_ext with (fun t => x n j * y n - x n j * sigmoid (a + t * b)); [intros t; match goal with |- ?u = ?v => change (@eq R u v) end; ring|].
    replace (- (x n j * (sigmoid a * (1 - sigmoid a)) * b)) with (0 - x n j * (b * (sigmoid a * (1 - sigmoid a)))) by ring.
    apply (is_derive_minus (K:=R_AbsRing) (V:=R_NormedModule)); [apply (is_derive_const (K:=R_AbsRing) (V:=R_NormedModule))|].
    apply (is_derive_scal (fun t => sigmoid (a + t * b))). apply (is_derive_comp sigmoid (fun t => a + t * b) 0 (sigmoid a * (1 - sigmoid a)) b).
    + replace (a + 0 * b) with a by ring. destruct (act_sigmoid a) as (d & _ & D & ->). exact D.
    + auto_derive; [exact I|ring].
Qed.
Print Assumptions logit_hessian.

(** Where the gradient is zero the log-likelihood is globally maximal: a fixed
    point of the iteration is a maximum-likelihood fit. *)
Theorem logit_stationary_maximal : forall n m X y c, (forall j, (j < S m)%nat -> gradient n m X y c j = 0) ->
  forall c', log_lik n m X y c' <= log_lik n m X y c.
Proof.
  intros n m X y c H c'. eapply Rle_trans; [apply (concave n m X y c c')|]. unfold dotn. rewrite (bs_ext (S m) _ (fun _ => 0)); [rewrite bs_zero; lra|].
  intros j Hj. rewrite H by exact Hj. ring.
Qed.
Print Assumptions logit_stationary_maximal.

(** ** The iteration *)
Definition solve_ok (solve : nat -> mat -> vec -> option vec) : Prop :=
  forall k A z d, solve k A z = Some d -> forall i, (i < k)%nat -> mvec k A d i = z i.

Lemma hess_entry n m X c j l : Rabs (hessian n m X c j l) <= bs n (fun i => Rabs (insert_ones X i j * insert_ones X i l)) / 4.
Proof.
  unfold hessian, mmul, tr. set (x := insert_ones X). set (mu := mu_of m x c).
  induction n as [|n IH]; simpl; [rewrite Rabs_R0; lra|]. eapply Rle_trans; [apply Rabs_triang|].
  assert (B : 0 < mu n < 1) by (unfold mu, mu_of; apply sigmoid_props).
  assert (Q : 0 <= mu n * (1 - mu n) <= 1 / 4) by (clear - B; clearbody mu; generalize dependent (mu n); intros r B; pose proof (Rle_0_sqr (r - 1 / 2)) as S; unfold Rsqr in S; nra).
  replace (x n j * (mu n * (1 - mu n)) * x n l) with ((x n j * x n l) * (mu n * (1 - mu n))) by ring.
  rewrite (Rabs_mult (x n j * x n l)), (Rabs_right (mu n * (1 - mu n))) by lra. pose proof (Rabs_pos (x n j * x n l)). nra.
Qed.
Lemma vnorm_entry k v j : (j < k)%nat -> Rabs (v j) <= vnorm k v.
Proof.
  intros Hj. unfold vnorm. rewrite <- sqrt_Rsqr_abs. apply sqrt_le_1_alt. unfold dotn, Rsqr.
  assert (P : bs k (fun i => if Nat.eqb i j then v i * v i else 0) <= bs k (fun i => v i * v i)).
  { apply bs_le. intros i Hi. destruct (Nat.eqb i j); [lra|apply Rle_0_sqr]. }
  rewrite (bs_delta k j (fun i => v i * v i) Hj) in P. exact P.
Qed.

(** coefficients from which a Newton step was taken that moved by less than tol *)
Definition converged (n m : nat) (tol : R) (X : mat) (y prev cur : vec) : Prop :=
  vnorm (S m) (fun j => prev j - cur j) < tol /\
  forall j, (j < S m)%nat -> mvec (S m) (hessian n m X prev) (fun l => cur l - prev l) j = gradient n m X y prev j.

Lemma irls_facts solve n m tol X y : solve_ok solve -> forall fuel prev cur it r k,
  irls solve fuel n m tol (insert_ones X) y prev cur it = Ret (r, k) ->
  (k = it /\ r = cur /\ vnorm (S m) (fun j => prev j - cur j) < tol) \/
  (forall i, (i < n)%nat -> y i - mu_of m (insert_ones X) r i < tol) \/
  exists p, converged n m tol X y p r.
Proof.
  intros HS. induction fuel as [|f IH]; intros prev cur it r k H; [discriminate|]. cbn [irls] in H.
  destruct (Rleb_spec tol (vnorm (S m) (fun j => prev j - cur j))) as [L|L].
  2:{ left. assert (E : (cur, it) = (r, k)) by congruence. injection E as <- <-. repeat split. lra. }
  destruct (anyn n _) eqn:A; cbn [negb] in H.
  - destruct (solve (S m) _ _) as [d|] eqn:Es; [|discriminate].
    destruct (IH _ _ _ _ _ H) as [(_ & -> & V)|R]; [|right; exact R]. right. right. exists cur. split; [exact V|].
    intros j Hj. unfold gradient. rewrite <- (HS _ _ _ _ Es j Hj). apply mvec_ext. intros; ring.
  - right. left. assert (E : (cur, it) = (r, k)) by congruence. injection E as <- <-. clear - A. induction n as [|n IH]; intros i Hi; [lia|].
    simpl in A. apply orb_false_iff in A. destruct A as [A1 A2]. destruct (Nat.eq_dec i n) as [->|]; [|apply IH; [exact A1|lia]].
    destruct (Rltb_spec (y n - mu_of m (insert_ones X) cur n) tol); [assumption|discriminate].
Qed.

(** What a successful fit guarantees: it ends after no step at all, or at
    coefficients whose predicted probabilities exceed every response minus the
    tolerance, or one short Newton step away from coefficients whose
    log-likelihood is maximal up to the tolerance. *)
Theorem logit_fit_result : forall solve fuel n m tol X y c it, solve_ok solve ->
  logistic_fit solve fuel n m tol X y = Ret (LFit c it) ->
  (it = O /\ vnorm (S m) c < tol) \/
  (forall i, (i < n)%nat -> y i - sigmoid (score_of m X c i) < tol) \/
  exists p, (forall j, (j < S m)%nat -> Rabs (p j - c j) < tol) /\
    (forall j, (j < S m)%nat -> mvec (S m) (hessian n m X p) (fun l => c l - p l) j = gradient n m X y p j) /\
    forall c', log_lik n m X y c' <= log_lik n m X y p +
      tol * bs (S m) (fun j => Rabs (c' j - p j) * bs (S m) (fun l => bs n (fun i => Rabs (insert_ones X i j * insert_ones X i l)) / 4)).
Proof.
  intros solve fuel n m tol X y c it HS H. unfold logistic_fit in H. destruct (rejected n y); [discriminate|].
  destruct (initial n m X y) as [c0|]; [|discriminate]. unfold rmap in H. apply bind_Ret_inv in H. destruct H as ((r, k) & E & H).
  simpl in H. assert (r = c /\ k = it) as [-> ->] by (split; congruence).
  destruct (irls_facts solve n m tol X y HS _ _ _ _ _ _ E) as [(-> & -> & V)|[B|(p & V & N)]].
  - left. split; [reflexivity|]. unfold vnorm, dotn in *. rewrite (bs_ext (S m) _ (fun i => (0 - c0 i) * (0 - c0 i))); [exact V|]. intros; ring.
  - right. left. intros i Hi. specialize (B i Hi). unfold mu_of in B. rewrite score_mvec in B. exact B.
  - right. right. exists p.
    assert (D : forall j, (j < S m)%nat -> Rabs (p j - c j) < tol) by (intros j Hj; eapply Rle_lt_trans; [apply (vnorm_entry (S m) (fun j => p j - c j) j Hj)|exact V]).
    split; [exact D|]. split; [exact N|]. intros c'. eapply Rle_trans; [apply (concave n m X y p c')|]. apply Rplus_le_compat_l.
    unfold dotn. rewrite <- bs_scal. apply bs_le. intros j Hj. rewrite <- (N j Hj). eapply Rle_trans; [apply Rle_abs|]. rewrite Rabs_mult.
    rewrite <- Rmult_assoc, (Rmult_comm tol), Rmult_assoc. apply Rmult_le_compat_l; [apply Rabs_pos|].
    assert (T : forall q, (q <= S m)%nat -> Rabs (bs q (fun l => hessian n m X p j l * (c l - p l))) <= tol * bs q (fun l => bs n (fun i => Rabs (insert_ones X i j * insert_ones X i l)) / 4)).
    { induction q as [|q IH]; intros Hq; simpl; [rewrite Rabs_R0; lra|]. eapply Rle_trans; [apply Rabs_triang|]. rewrite Rmult_plus_distr_l. apply Rplus_le_compat; [apply IH; lia|].
      rewrite Rabs_mult, Rmult_comm. apply Rmult_le_compat; [apply Rabs_pos|apply Rabs_pos| |apply hess_entry]. left. rewrite Rabs_minus_sym. apply D. lia. }
    apply (T (S m)). lia.
Qed.
Print Assumptions logit_fit_result.

(** ** Prediction and scores *)
Lemma proba_score m c X i : predict_proba m c X i = sigmoid (score_of m X c i).
Proof. unfold predict_proba, score_of, mvec. f_equal. ring. Qed.
Theorem logit_predict_threshold : forall m c X i, 0 < predict_proba m c X i < 1 /\
  (0 < score_of m X c i -> logit_predict m c X i = 1) /\ (score_of m X c i <= 0 -> logit_predict m c X i = 0).
Proof.
  intros m c X i. unfold logit_predict. rewrite proba_score. set (t := score_of m X c i).
  assert (H0 : sigmoid 0 = 1 / 2) by (unfold sigmoid; rewrite Ropp_0, exp_0; lra).
  split; [apply sigmoid_props|]. split; intros H.
  - assert (sigmoid 0 < sigmoid t) by (apply sigmoid_props, H). destruct (Rltb_spec (1 / 2) (sigmoid t)); [reflexivity|lra].
  - assert (sigmoid t <= sigmoid 0) by (destruct H as [H| ->]; [left; apply sigmoid_props, H|lra]). destruct (Rltb_spec (1 / 2) (sigmoid t)); [lra|reflexivity].
Qed.
Print Assumptions logit_predict_threshold.

Definition binary (n : nat) (y : vec) : Prop := forall i, (i < n)%nat -> y i = 0 \/ y i = 1.
(** the rate is the share of differing labels *)
Fixpoint mismatches (n : nat) (y z : vec) : nat :=
  match n with O => O | S k => (mismatches k y z + if Req_EM_T (y k) (z k) then 0 else 1)%nat end.
Theorem logit_misclassification : forall n y z, (0 < n)%nat -> binary n y -> binary n z ->
  score_misclassification n y z = INR (mismatches n y z) / INR n /\ 0 <= score_misclassification n y z <= 1.
Proof.
  intros n y z Hn Hy Hz. assert (P : 0 < INR n) by (apply lt_0_INR, Hn). unfold score_misclassification.
  assert (E : bs n (fun i => Rabs (y i - z i)) = INR (mismatches n y z) /\ (mismatches n y z <= n)%nat).
  { clear Hn P. induction n as [|n IH]; [simpl; split; [reflexivity|lia]|]. destruct IH as [E L]; [intros i Hi; apply Hy; lia|intros i Hi; apply Hz; lia|].
    cbn [bs mismatches]. rewrite plus_INR, E. specialize (Hy n (le_n _)). specialize (Hz n (le_n _)). destruct (Req_EM_T (y n) (z n)) as [e|e].
    - rewrite e. unfold Rminus. rewrite Rplus_opp_r, Rabs_R0. simpl INR. split; [ring|lia].
    - simpl INR. split; [|lia]. f_equal. destruct Hy as [Y|Y], Hz as [Z|Z]; rewrite Y, Z in *; try (exfalso; apply e; reflexivity); unfold Rabs; destruct (Rcase_abs _); lra. }
  destruct E as [E L]. rewrite E. split; [reflexivity|]. apply le_INR in L. pose proof (pos_INR (mismatches n y z)). split.
  - apply Rmult_le_pos; [assumption|left; apply Rinv_0_lt_compat, P].
  - apply Rmult_le_reg_r with (INR n); [exact P|]. unfold Rdiv. rewrite Rmult_assoc, Rinv_l by lra. lra.
Qed.
Print Assumptions logit_misclassification.

(** The cross-entropy score of the predictions is the mean log-likelihood, so the
    maximum-likelihood fit has the largest score.  Finding: it is never positive;
    the cross-entropy it is called is its opposite. *)
Theorem logit_cross_entropy_sign_refuted : forall n m X y c, (0 < n)%nat -> binary n y ->
  score_cross_entropy n y (predict_proba m c X) = log_lik n m X y c / INR n /\
  score_cross_entropy n y (predict_proba m c X) < 0.
Proof.
  intros n m X y c Hn Hy. assert (P : 0 < INR n) by (apply lt_0_INR, Hn).
  assert (E : score_cross_entropy n y (predict_proba m c X) = log_lik n m X y c / INR n).
  { unfold score_cross_entropy, vmean, log_lik. f_equal. apply bs_ext. intros i Hi. rewrite proba_score. reflexivity. }
  split; [exact E|]. rewrite E. unfold log_lik.
  assert (N : forall k, (k <= n)%nat -> (0 < k)%nat -> bs k (fun i => y i * ln (sigmoid (score_of m X c i)) + (1 - y i) * ln (1 - sigmoid (score_of m X c i))) < 0).
  { assert (T : forall i, (i < n)%nat -> y i * ln (sigmoid (score_of m X c i)) + (1 - y i) * ln (1 - sigmoid (score_of m X c i)) < 0).
    { intros i Hi. pose proof (proj1 sigmoid_props (score_of m X c i)) as B. set (s := sigmoid (score_of m X c i)) in *.
      assert (L1 : ln s < 0) by (rewrite <- ln_1; apply ln_increasing; lra). assert (L2 : ln (1 - s) < 0) by (rewrite <- ln_1; apply ln_increasing; lra).
      destruct (Hy i Hi) as [-> | ->]; lra. }
    induction k as [|k IH]; intros Hk Hp; [lia|]. simpl. pose proof (T k ltac:(lia)). destruct k; [simpl; lra|]. specialize (IH ltac:(lia) ltac:(lia)). lra. }
  unfold Rdiv. specialize (N n (le_n n) Hn). assert (0 < / INR n) by (apply Rinv_0_lt_compat, P). nra.
Qed.
Print Assumptions logit_cross_entropy_sign_refuted.

(** ** Validation *)
(** Finding: no response is ever rejected. *)
Theorem logit_validation_refuted : forall n y, rejected n y = false.
Proof.
  intros n y. unfold rejected. induction n as [|n IH]; [reflexivity|]. cbn [anyn]. rewrite IH. simpl.
  destruct (Rltb_spec (Rabs (y n)) eps) as [A|]; [|reflexivity]. destruct (Rltb_spec (Rabs (y n - 1)) eps) as [B|]; [|reflexivity]. exfalso.
  assert (eps <= 1 / 2). { unfold eps. rewrite <- (Rmult_1_l (/ 2 ^ 52)). assert (0 < 2 ^ 51) by (apply pow_lt; lra). apply Rmult_le_reg_r with (2 ^ 52); [simpl in *; lra|]. rewrite Rmult_1_l, Rinv_l by (simpl in *; lra). simpl in *. assert (1 <= 2 ^ 51) by (apply pow_R1_Rle; lra). simpl in *; lra. }
  unfold Rabs in A, B. destruct (Rcase_abs (y n)), (Rcase_abs (y n - 1)); lra.
Qed.
Print Assumptions logit_validation_refuted.

(** Finding: when all responses are in one class no iteration is made: the
    coefficients are all zero and every probability is one half, whatever the
    solver and the tolerance. *)
Theorem logit_one_class_refuted : forall solve fuel n m tol X y v, (0 < n)%nat -> 0 < tol -> v = 0 \/ v = 1 -> (forall i, (i < n)%nat -> y i = v) ->
  (exists j, (j < m)%nat /\ bs n (fun i => X i j) <> 0) ->
  exists c, logistic_fit solve (S fuel) n m tol X y = Ret (LFit c 0) /\ forall Z i, predict_proba m c Z i = 1 / 2.
Proof.
  intros solve fuel n m tol X y v Hn Ht Hv Hy (j & Hj & Nz). assert (P : INR n <> 0) by (apply not_0_INR; lia).
  unfold logistic_fit. rewrite logit_validation_refuted. unfold initial.
  set (x0 := fun j => vmean n (fun i => X i j * y i)). set (x1 := fun j => vmean n (fun i => X i j * (1 - y i))).
  assert (Z0 : forall j, x0 j = v * (bs n (fun i => X i j) / INR n)).
  { intros l. unfold x0, vmean. rewrite (bs_ext n _ (fun i => v * X i l)), bs_scal by (intros i Hi; rewrite (Hy i Hi); ring). field; exact P. }
  assert (Z1 : forall j, x1 j = (1 - v) * (bs n (fun i => X i j) / INR n)).
  { intros l. unfold x1, vmean. rewrite (bs_ext n _ (fun i => (1 - v) * X i l)), bs_scal by (intros i Hi; rewrite (Hy i Hi); ring). field; exact P. }
  assert (ZY : vmean n y = v) by (unfold vmean; rewrite (bs_ext n _ (fun _ => v)), bs_const by exact Hy; field; exact P).
  cbv zeta. match goal with |- context [Reqb ?d 0] => destruct (Reqb_spec d 0) as [E|E] end.
  - exfalso. apply Nz. assert (Q : (x1 j - x0 j) * (x1 j - x0 j) = 0) by (apply (bs_zero_inv m (fun j => (x1 j - x0 j) * (x1 j - x0 j))); [intros; apply Rle_0_sqr|exact E|exact Hj]).
    rewrite Z0, Z1 in Q. assert (Q2 : bs n (fun i => X i j) / INR n = 0) by (destruct Hv as [-> | ->]; nra).
    apply Rmult_eq_reg_r with (/ INR n); [|apply Rinv_neq_0_compat, P]. rewrite Rmult_0_l. exact Q2.
  - assert (Md : dotn m (fun j => x1 j * vmean n y + x0 j * (1 - vmean n y)) (fun j => x1 j - x0 j) = 0).
    { unfold dotn. rewrite (bs_ext m _ (fun _ => 0)); [apply bs_zero|]. intros l Hl. rewrite ZY, Z0, Z1. destruct Hv as [-> | ->]; ring. }
    match goal with |- context [irls _ _ _ _ _ _ _ _ ?c0 _] => set (c := c0) end.
    assert (CZ : forall l, c l = 0).
    { unfold x0, x1 in Md. match type of E with ?D <> 0 => assert (Q : 0 / D = 0) by (field; exact E) end.
      intros [|l]; unfold c; rewrite Md, Q; [|ring]. unfold dotn. rewrite (bs_ext m _ (fun _ => 0)) by (intros; ring). rewrite bs_zero. ring. }
    exists c. split.
    + cbn [irls]. assert (V : vnorm (S m) (fun j0 => 0 - c j0) = 0).
      { unfold vnorm, dotn. rewrite (bs_ext (S m) _ (fun _ => 0)), bs_zero by (intros; rewrite CZ; ring). apply sqrt_0. }
      rewrite V. destruct (Rleb_spec tol 0); [lra|]. reflexivity.
    + intros Z i. rewrite proba_score. unfold score_of. rewrite (bs_ext m _ (fun _ => 0)), bs_zero, CZ by (intros; rewrite CZ; ring).
      unfold sigmoid. replace (- (0 + 0)) with 0 by ring. rewrite exp_0. lra.
Qed.
Print Assumptions logit_one_class_refuted.

(** Finding: when the two class averages coincide (for instance with balanced
    classes and equal feature sums) the starting point is 0/0 and the fit returns
    NaN coefficients without an error. *)
Theorem logit_equal_means_refuted : forall solve fuel n m tol X y,
  (forall j, (j < m)%nat -> bs n (fun i => X i j * (1 - 2 * y i)) = 0) -> logistic_fit solve fuel n m tol X y = Ret LNan.
Proof.
  intros solve fuel n m tol X y H. unfold logistic_fit. rewrite logit_validation_refuted. unfold initial. cbv zeta.
  match goal with |- context [Reqb ?d 0] => destruct (Reqb_spec d 0) as [E|E] end; [reflexivity|]. exfalso. apply E.
  unfold dotn. rewrite (bs_ext m _ (fun _ => 0)); [apply bs_zero|]. intros j Hj. unfold vmean.
  assert (Q : bs n (fun i => X i j * (1 - y i)) / INR n - bs n (fun i => X i j * y i) / INR n = 0).
  { unfold Rdiv. rewrite <- Rmult_minus_distr_r, <- bs_minus. rewrite (bs_ext n _ (fun i => X i j * (1 - 2 * y i))) by (intros; ring). rewrite (H j Hj). ring. }
  rewrite Q. ring.
Qed.
Print Assumptions logit_equal_means_refuted.

(** ** Concrete cases *)
(** x = 1, -1, 1, -1 with y = 0, 0, 1, 1: equal class averages, and zero
    coefficients are the maximum-likelihood fit *)
Definition alt_x : mat := fun i _ => if Nat.even i then 1 else -1.
Definition alt_y : vec := fun i => if Nat.ltb i 2 then 0 else 1.
Example alt_nan : forall solve fuel tol, logistic_fit solve fuel 4 1 tol alt_x alt_y = Ret LNan.
Proof. intros. apply logit_equal_means_refuted. intros j Hj. unfold alt_x, alt_y. simpl. ring. Qed.
Example alt_max : forall c', log_lik 4 1 alt_x alt_y c' <= log_lik 4 1 alt_x alt_y (fun _ => 0).
Proof.
  apply logit_stationary_maximal. intros j Hj. unfold gradient, mu_of, mvec, tr.
  assert (H0 : forall i, sigmoid (bs 2 (fun l => insert_ones alt_x i l * 0)) = 1 / 2).
  { intros i. rewrite (bs_ext 2 _ (fun _ => 0)), bs_zero by (intros; ring). unfold sigmoid. rewrite Ropp_0, exp_0. lra. }
  rewrite (bs_ext 4 _ (fun i => insert_ones alt_x i j * (alt_y i - 1 / 2))) by (intros i Hi; rewrite H0; reflexivity).
  destruct j as [|[|j]]; [| |lia]; unfold insert_ones, alt_y, alt_x; simpl; field.
Qed.
(** a successful fit without a step *)
Example zero_fit : exists c, logistic_fit (fun _ _ _ => None) 1 2 1 (1 / 100) (fun _ _ => 1) (fun _ => 0) = Ret (LFit c 0) /\ forall Z i, predict_proba 1 c Z i = 1 / 2.
Proof. apply logit_one_class_refuted with 0; [lia|lra|left; reflexivity|reflexivity|]. exists 0%nat. split; [lia|]. simpl. lra. Qed.
