(** C53: activation functions. *)
From Coq Require Import Reals List ZArith Lra Lia.
From Coquelicot Require Import Coquelicot.
From Verif Require Import Res InterpModel InterpProofs SpecialFns BsmProofs AdModel AdSpec AdProofs AdGradient GdModel GdProps ActModel.
Import ListNotations.
Open Scope R_scope.

(** One input: the value and gradient the library computes for a body that means
    [f] are f and its derivative. *)
Lemma body_ok : forall body f x, (0 < length body)%nat ->
  well_formed (ILeaf x :: body) -> in_domain (ILeaf x :: body) -> (forall i, In i body -> faulty i = false) ->
  (forall y, fval body [y] = f y) ->
  exists d, ad_objective body [x] = Ret (f x, [d]) /\ is_derive f x d.
Proof.
  intros body f x Hl W D F Hf.
  destruct (ad_directional body [x]) as (g & E & Lg & Hd & _); [exact W|exact D| |rewrite app_length; simpl; lia|].
  - intros i [<-|Hi]; [reflexivity|apply F, Hi].
  - destruct g as [|d [|]]; simpl in Lg; try lia. exists d. rewrite Hf in E. split; [exact E|].
    specialize (Hd [1] eq_refl).
    apply is_derive_ext with (fun y => (fun t => fval body (line [x] t [1])) (y - x)).
    + intros y. unfold line. simpl. rewrite Hf. f_equal. ring.
    + replace d with (scal 1 (dotl [1] [d])) by (unfold scal, dotl; simpl; unfold mult; simpl; ring).
      apply (is_derive_comp (fun t => fval body (line [x] t [1])) (fun y => y - x) x).
      * replace (x - x) with 0 by ring. exact Hd.
      * auto_derive; [exact I|ring].
Qed.
Lemma du (f : R -> R) x a b : is_derive f x a -> is_derive f x b -> a = b.
Proof. intros A B. rewrite <- (is_derive_unique _ _ _ A). apply is_derive_unique, B. Qed.
Ltac wf := intros k i Hk; repeat (destruct k as [|k]; [injection Hk as <-; split; [exact I|simpl; intros; lia]|simpl in Hk]); destruct k; discriminate.
Ltac ev := cbv [at_ sem fold_left app nth sem_instr sem_un sem_bin vf_bin v_sigmoid v_relu v_gelu v_tanh v_softplus v_gaussian dom_instr dom_un dom_bin].
Ltac ev_in Q := cbv [at_ sem fold_left app nth sem_instr sem_un sem_bin vf_bin v_sigmoid v_relu v_gelu v_tanh v_softplus v_gaussian dom_instr dom_un dom_bin] in Q.
Ltac inlist := intros i Hi; simpl in Hi; repeat (destruct Hi as [<-|Hi]; [try reflexivity|]); try contradiction.
Lemma wf_check p : (forall k, (k < length p)%nat -> match nth_error p k with Some i => nonempty_fold i /\ forall a, In a (refs i) -> (a < k)%nat | None => True end) -> well_formed p.
Proof. intros H k i Hk. assert (k < length p)%nat by (apply nth_error_Some; congruence). specialize (H k H0). rewrite Hk in H. exact H. Qed.
Ltac wfc := apply wf_check; intros k Hk; simpl in Hk; repeat (destruct k as [|k]; [simpl; split; [exact I|intros a Ha; simpl in Ha; intuition lia]|]); exfalso; lia.

(** ** The two implementations agree, and the library's gradients are exact *)

Theorem act_sigmoid : forall x, exists d, ad_objective v_sigmoid [x] = Ret (sigmoid x, [d]) /\ is_derive sigmoid x d /\
  d = sigmoid x * (1 - sigmoid x).
Proof.
  intros x. assert (P : forall y, 0 < 1 + exp y) by (intros y; pose proof (exp_pos y); lra).
  destruct (body_ok v_sigmoid sigmoid x) as (d & E & Hd); [simpl; lia|wfc| | | |].
  - inlist; simpl; try exact I. intro Q. ev_in Q. pose proof (P (- x)). lra.
  - inlist.
  - intros y. unfold fval, sigmoid. cbn. unfold at_. cbn. rewrite (Rplus_comm 1). unfold Rdiv. ring.
  - exists d. split; [exact E|]. split; [exact Hd|].
    apply (du _ _ _ _ Hd). unfold sigmoid. pose proof (P (- x)).
    auto_derive; [lra|]. field. lra.
Qed.
Print Assumptions act_sigmoid.

Theorem act_relu : forall x, fval v_relu [x] = relu x /\
  (x <> 0 -> exists d, ad_objective v_relu [x] = Ret (relu x, [d]) /\ is_derive relu x d /\ d = if Rltb 0 x then 1 else 0).
Proof.
  assert (V : forall y, fval v_relu [y] = relu y).
  { intros y. unfold fval, relu. cbn. unfold at_. cbn. unfold Rabs. destruct (Rltb_spec 0 y), (Rcase_abs y); lra. }
  intros x. split; [apply V|]. intros Hx.
  destruct (body_ok v_relu relu x) as (d & E & Hd); [simpl; lia|wfc| | |exact V|].
  - inlist; simpl; try exact I; ev; try exact Hx; intro Q; lra.
  - inlist.
  - exists d. split; [exact E|]. split; [exact Hd|].
    assert (D : is_derive relu x (if Rltb 0 x then 1 else 0)).
    { assert (P : 0 < Rabs x) by (apply Rabs_pos_lt, Hx).
      apply is_derive_ext_loc with (fun y => if Rltb 0 x then y else 0).
      - exists (mkposreal _ P). intros y Hy. unfold ball in Hy. simpl in Hy. unfold AbsRing_ball, abs, minus, plus, opp in Hy. simpl in Hy.
        unfold relu. destruct (Rltb_spec 0 x), (Rltb_spec 0 y); try reflexivity; exfalso; unfold Rabs in Hy; destruct (Rcase_abs (y + - x)), (Rcase_abs x); lra.
      - destruct (Rltb 0 x); [apply (is_derive_id (K:=R_AbsRing))|apply (is_derive_const (K:=R_AbsRing) (V:=R_NormedModule))]. }
    exact (du _ _ _ _ Hd D).
Qed.
Print Assumptions act_relu.

Theorem act_gelu : forall x, exists d, ad_objective v_gelu [x] = Ret (gelu x, [d]) /\ is_derive gelu x d /\
  gelu x = x * ncdf x /\ d = ncdf x + x * npdf x.
Proof.
  assert (N : forall y, gelu y = y * ncdf y).
  { intros y. unfold gelu, ncdf, erfc. replace (- y / sqrt 2) with (- (y / sqrt 2)) by (unfold Rdiv; ring). rewrite erf_odd. field. }
  intros x. destruct (body_ok v_gelu gelu x) as (d & E & Hd); [simpl; lia|wfc| | | |].
  - inlist; simpl; try exact I. pose proof sqrt2_pos. intro Q; lra.
  - inlist.
  - intros y. unfold fval, gelu. cbn. unfold at_. cbn. reflexivity.
  - exists d. split; [exact E|]. split; [exact Hd|]. split; [apply N|].
    assert (D : is_derive gelu x (ncdf x + x * npdf x)).
    { apply is_derive_ext with (fun y => y * ncdf y); [intros; symmetry; apply N|].
      replace (ncdf x + x * npdf x) with (1 * ncdf x + x * npdf x) by ring.
      apply d_mul; [apply (is_derive_id (K:=R_AbsRing))|]. apply ncdf_derive. }
    exact (du _ _ _ _ Hd D).
Qed.
Print Assumptions act_gelu.

Theorem act_tanh : forall x, exists d, ad_objective v_tanh [x] = Ret (f_tanh x, [d]) /\ is_derive f_tanh x d /\ d = 1 - (f_tanh x) ^ 2.
Proof.
  intros x. destruct (body_ok v_tanh f_tanh x) as (d & E & Hd); [simpl; lia|wfc| | | |].
  - inlist; simpl; try exact I.
  - inlist.
  - intros y. reflexivity.
  - exists d. split; [exact E|]. split; [exact Hd|].
    apply (du _ _ _ _ Hd). unfold f_tanh, tanh, sinh, cosh.
    pose proof (exp_pos x). pose proof (exp_pos (- x)). auto_derive; [lra|]. field. lra.
Qed.
Print Assumptions act_tanh.

Theorem act_softplus : forall x, exists d, ad_objective v_softplus [x] = Ret (softplus x, [d]) /\ is_derive softplus x d /\ d = sigmoid x.
Proof.
  intros x. pose proof (exp_pos x). destruct (body_ok v_softplus softplus x) as (d & E & Hd); [simpl; lia|wfc| | | |].
  - inlist; simpl; try exact I. ev. lra.
  - inlist.
  - intros y. reflexivity.
  - exists d. split; [exact E|]. split; [exact Hd|].
    apply (du _ _ _ _ Hd). unfold softplus, sigmoid. auto_derive; [lra|].
    rewrite exp_Ropp. field. split; lra.
Qed.
Print Assumptions act_softplus.

(** The variable version is the Gaussian exp(-x^2) ... *)
Theorem act_gaussian_variable : forall x, exists d, ad_objective v_gaussian [x] = Ret (exp (- x ^ 2), [d]) /\
  is_derive (fun y => exp (- y ^ 2)) x d /\ d = - 2 * x * exp (- x ^ 2).
Proof.
  intros x. destruct (body_ok v_gaussian (fun y => exp (- y ^ 2)) x) as (d & E & Hd); [simpl; lia|wfc| | | |].
  - inlist; simpl; try exact I. left. lia.
  - inlist.
  - intros y. reflexivity.
  - exists d. split; [exact E|]. split; [exact Hd|].
    apply (du _ _ _ _ Hd). auto_derive; [exact I|]. simpl. ring.
Qed.
Print Assumptions act_gaussian_variable.
(** ... finding: the f64 and vector versions compute exp(+x^2): unbounded, at
    least one, and different from the variable version except at zero. *)
Theorem act_gaussian_number_refuted : forall x, gaussian x = exp (x ^ 2) /\ (x <> 0 -> 1 < gaussian x /\ fval v_gaussian [x] < 1).
Proof.
  intros x. assert (E : gaussian x = exp (x ^ 2)) by (unfold gaussian; f_equal; simpl; ring). split; [exact E|]. intros Hx.
  assert (0 < x ^ 2) by (apply pow2_gt_0 || (simpl; nra); assumption). split.
  - rewrite E, <- exp_0. apply exp_increasing. lra.
  - change (exp (- x ^ 2) < 1). rewrite <- exp_0 at 1. apply exp_increasing. lra.
Qed.
Print Assumptions act_gaussian_number_refuted.

(** ** Shape *)

Theorem sigmoid_props : (forall x, 0 < sigmoid x < 1) /\ (forall x y, x < y -> sigmoid x < sigmoid y) /\
  (forall x, sigmoid (- x) = 1 - sigmoid x) /\ (forall x, sigmoid x = exp x / (exp x + 1)) /\
  (forall x, sigmoid (2 * x) = (1 + f_tanh x) / 2) /\
  is_lim sigmoid p_infty 1 /\ is_lim sigmoid m_infty 0.
Proof.
  assert (B : forall x, 0 < sigmoid x < 1).
  { intros x. unfold sigmoid. pose proof (exp_pos (- x)). split; [apply Rdiv_lt_0_compat; lra|]. apply Rmult_lt_reg_r with (1 + exp (- x)); [lra|].
    unfold Rdiv. rewrite Rmult_assoc, Rinv_l by lra. lra. }
  assert (S : forall x, sigmoid (- x) = 1 - sigmoid x).
  { intros x. unfold sigmoid. rewrite Ropp_involutive, exp_Ropp. pose proof (exp_pos x). field. split; lra. }
  assert (L : is_lim sigmoid m_infty 0).
  { apply is_lim_le_le_loc with (fun _ => 0) exp.
    - exists 0. intros y _. split; [apply Rlt_le, B|]. unfold sigmoid. pose proof (exp_pos y). rewrite exp_Ropp.
      apply Rmult_le_reg_r with (1 + / exp y); [assert (0 < / exp y) by (apply Rinv_0_lt_compat; lra); lra|].
      assert (0 < / exp y) by (apply Rinv_0_lt_compat; lra). unfold Rdiv. rewrite Rmult_assoc, Rinv_l by lra.
      rewrite Rmult_plus_distr_l, Rinv_r by lra. lra.
    - apply is_lim_const.
    - apply is_lim_exp_m. }
  split; [exact B|]. split; [|split; [exact S|split; [|split; [|split; [|exact L]]]]].
  - intros x y H. unfold sigmoid. pose proof (exp_pos (- x)). pose proof (exp_pos (- y)). assert (exp (- y) < exp (- x)) by (apply exp_increasing; lra).
    unfold Rdiv. rewrite !Rmult_1_l. apply Rinv_lt_contravar; [apply Rmult_lt_0_compat; lra|lra].
  - intros x. unfold sigmoid. rewrite exp_Ropp. pose proof (exp_pos x). field. split; lra.
  - intros x. unfold sigmoid, f_tanh, tanh, sinh, cosh. replace (- (2 * x)) with (- x + - x) by ring. rewrite exp_plus, exp_Ropp.
    pose proof (exp_pos x). assert (0 < exp x * exp x) by nra. field. repeat split; lra.
  - apply is_lim_ext with (fun x => 1 - sigmoid (- x)); [intros x; rewrite S; ring|].
    replace (Finite 1) with (Finite (1 - 0)) by (f_equal; ring). apply (is_lim_minus (fun _ => 1) (fun x => sigmoid (- x)) p_infty 1 0 (1 - 0)); [apply is_lim_const| |reflexivity].
    eapply (is_lim_comp sigmoid (fun x => - x) p_infty 0 m_infty); [exact L| |exists 0; intros; discriminate].
    apply (is_lim_opp (fun x => x) p_infty p_infty), is_lim_id.
Qed.
Print Assumptions sigmoid_props.

Theorem relu_softplus_gelu_order : forall x, relu x < softplus x <= relu x + ln 2 /\ Rmin 0 x <= gelu x <= relu x /\
  softplus x - softplus (- x) = x /\ gelu x - gelu (- x) = x.
Proof.
  intros x. pose proof (exp_pos x) as P.
  assert (SP : forall y, softplus y - softplus (- y) = y).
  { intros y. unfold softplus. pose proof (exp_pos y). rewrite exp_Ropp. replace (1 + / exp y) with ((1 + exp y) / exp y) by (field; lra).
    unfold Rdiv. rewrite ln_mult, ln_Rinv, ln_exp by (try apply Rinv_0_lt_compat; lra). ring. }
  assert (N : forall y, gelu y = y * ncdf y).
  { intros y. unfold gelu, ncdf, erfc. replace (- y / sqrt 2) with (- (y / sqrt 2)) by (unfold Rdiv; ring). rewrite erf_odd. field. }
  assert (NB : 0 < ncdf x < 1).
  { unfold ncdf, erfc. pose proof (erf_bound (- x / sqrt 2)). lra. }
  split; [|split; [|split; [apply SP|]]].
  - unfold relu. destruct (Rltb_spec 0 x).
    + assert (E : softplus x = x + softplus (- x)) by (pose proof (SP x); lra). rewrite E. unfold softplus.
      pose proof (exp_pos (- x)). assert (exp (- x) < 1) by (rewrite <- exp_0; apply exp_increasing; lra).
      split; [assert (0 < ln (1 + exp (- x))) by (rewrite <- ln_1; apply ln_increasing; lra); lra|].
      assert (ln (1 + exp (- x)) < ln 2) by (apply ln_increasing; lra). lra.
    + unfold softplus. split; [rewrite <- ln_1; apply ln_increasing; lra|].
      assert (exp x <= 1). { destruct (Req_dec x 0) as [->|]; [rewrite exp_0; lra|]. left. rewrite <- exp_0. apply exp_increasing. lra. }
      destruct H as [H|H]; [left|right]; [rewrite Rplus_0_l; apply ln_increasing; lra|rewrite Rplus_0_l; f_equal; lra].
  - rewrite N. unfold relu. destruct (Rltb_spec 0 x); [rewrite Rmin_left by lra|rewrite Rmin_right by lra]; nra.
  - rewrite !N. replace (ncdf (- x)) with (1 - ncdf x); [ring|]. unfold ncdf, erfc. rewrite Ropp_involutive.
    replace (- x / sqrt 2) with (- (x / sqrt 2)) by (unfold Rdiv; ring). rewrite erf_odd. field.
Qed.
Print Assumptions relu_softplus_gelu_order.

(** Vector versions act entry by entry. *)
Theorem act_vector : forall f xs i, length (v_map f xs) = length xs /\ ((i < length xs)%nat -> nth i (v_map f xs) 0 = f (nth i xs 0)).
Proof.
  intros f xs i. unfold v_map. split; [apply map_length|]. intros Hi. rewrite (nth_indep _ 0 (f 0)) by (rewrite map_length; exact Hi). apply map_nth.
Qed.
Print Assumptions act_vector.

(** A concrete gradient: relu at -1 and gelu at 0. *)
Example relu_gradient : exists d, ad_objective v_relu [-1] = Ret (0, [d]) /\ d = 0.
Proof.
  destruct (act_relu (-1)) as [_ H]. destruct H as (d & E & _ & Hd); [lra|]. exists d.
  unfold relu in E. destruct (Rltb_spec 0 (-1)); [lra|]. destruct (Rltb_spec 0 (-1)); [lra|]. split; [exact E|exact Hd].
Qed.
