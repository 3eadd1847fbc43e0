(** The Householder objectives and the maps of the outer segments of
    implied_volatility.rs. *)
From Coq Require Import Reals Lra Lia Psatz Arith Bool.
From Coquelicot Require Import Coquelicot.
From Verif Require Import Res InterpModel StatModel SpecialFns DistModel DistGauss BsmModel BsmProofs IvModel IvMath IvExp IvBlack.
Open Scope R_scope.

(** ** Derivatives along a chain on the positive half line *)
Lemma pos_chain (G : nat -> R -> R) (n : nat) : (forall k s, (k < n)%nat -> 0 < s -> is_derive (G k) s (G (S k) s)) ->
  forall k s, (k <= n)%nat -> 0 < s -> Derive_n (G 0%nat) k s = G k s.
Proof.
  intros H. induction k as [|k IH]; intros s Hk Hs; [reflexivity|]. cbn [Derive_n].
  rewrite (Derive_ext_loc _ (G k)).
  - apply is_derive_unique, H; [lia|exact Hs].
  - exists (mkposreal s Hs). intros u Hu. apply IH; [lia|]. change (Rabs (u - s) < s) in Hu. apply Rabs_def2 in Hu. lra.
Qed.
Lemma pos_chain_ex (G : nat -> R -> R) (n : nat) : (forall k s, (k < n)%nat -> 0 < s -> is_derive (G k) s (G (S k) s)) ->
  forall k s, (k <= n)%nat -> 0 < s -> ex_derive_n (G 0%nat) k s.
Proof.
  intros H k s Hk Hs. destruct k as [|k]; [exact I|]. cbn [ex_derive_n]. apply (ex_derive_ext_loc (G k)).
  - exists (mkposreal s Hs). intros u Hu. symmetry. apply (pos_chain G n H); [lia|]. change (Rabs (u - s) < s) in Hu. apply Rabs_def2 in Hu. lra.
  - eexists. apply H; [lia|exact Hs].
Qed.

(** the second logarithmic derivative of the Black function and its derivative *)
Definition Hh (x s : R) : R := x ^ 2 / s ^ 3 - s / 4.
Definition Hd (x s : R) : R := - 3 * x ^ 2 / s ^ 4 - / 4.
Lemma Hh_derive x s : 0 < s -> is_derive (Hh x) s (Hd x s).
Proof. intros Hs. unfold Hh, Hd. auto_derive; [repeat split; apply Rgt_not_eq; repeat apply Rmult_lt_0_compat; lra|]. match goal with |- ?u = ?v => change (@eq R u v) end. field. lra. Qed.

Lemma dln (f : R -> R) s d : 0 < f s -> is_derive f s d -> is_derive (fun u => ln (f u)) s (d / f s).
Proof. intros P D. eapply isd_eq; [apply (is_derive_comp ln f s (/ f s) d); [apply is_derive_ln, P|exact D]|]. unfold scal; simpl; unfold mult; simpl. field. lra. Qed.
Lemma dinv (f : R -> R) s d : f s <> 0 -> is_derive f s d -> is_derive (fun u => / f u) s (- d / f s ^ 2).
Proof. intros P D. eapply isd_eq; [apply is_derive_inv; [exact D|exact P]|]. field. exact P. Qed.

(** ** The step of the lowest segment *)
Section Lower.
  Variables x beta : R.
  Hypothesis Hx : x <= 0.
  Let b s := nblack x s.
  Let v s := nvega x s.
  Let L s := ln (b s).
  Let w s := v s / b s.
  Definition lowG (k : nat) (s : R) : R :=
    match k with
    | 0 => 1 / L s - 1 / ln beta
    | 1 => - (w s / L s ^ 2)
    | 2 => - (w s / L s ^ 2) * (Hh x s - w s * (1 + 2 / L s))
    | _ => - (w s / L s ^ 2) * (Hh x s ^ 2 + Hd x s + 2 * w s ^ 2 * (1 + 3 / L s * (1 + 1 / L s)) - 3 * Hh x s * w s * (1 + 2 / L s))
    end.
  Lemma b_range s : 0 < s -> 0 < b s < 1.
  Proof. intros Hs. unfold b. split; [now apply nblack_pos|]. pose proof (nblack_lt x s Hs). assert (exp (x / 2) <= 1). { rewrite <- exp_0. destruct Hx as [N|N]; [left; apply exp_increasing; lra|rewrite N; right; f_equal; field]. } lra. Qed.
  Lemma L_neg s : 0 < s -> L s < 0.
  Proof. intros Hs. unfold L. destruct (b_range s Hs). rewrite <- ln_1. apply ln_increasing; assumption. Qed.
  Lemma L_derive s : 0 < s -> is_derive L s (w s).
  Proof. intros Hs. apply dln; [apply b_range, Hs|]. apply nblack_derive, Hs. Qed.
  Lemma w_derive s : 0 < s -> is_derive w s (w s * (Hh x s - w s)).
  Proof.
    intros Hs. destruct (b_range s Hs) as [B _]. unfold w. apply (isd_ext (fun u => v u * / b u)); [reflexivity|].
    eapply isd_eq; [apply d_mul; [apply nvega_derive, Hs|apply dinv; [lra|apply nblack_derive, Hs]]|]. cbv beta. fold (b s) (v s). unfold Hh. field. split; lra.
  Qed.
  Lemma L_inv_derive s : 0 < s -> is_derive (fun u => / L u) s (- w s / L s ^ 2).
  Proof. intros Hs. apply dinv; [pose proof (L_neg s Hs); lra|apply L_derive, Hs]. Qed.
  Lemma w_pos s : 0 < s -> 0 < w s.
  Proof. intros Hs. unfold w. apply Rdiv_lt_0_compat; [apply nvega_pos|apply b_range, Hs]. Qed.
  Lemma lowG_chain k s : (k < 3)%nat -> 0 < s -> is_derive (lowG k) s (lowG (S k) s).
  Proof.
    intros Hk Hs. pose proof (L_neg s Hs) as LN. pose proof (w_derive s Hs) as DW. pose proof (L_inv_derive s Hs) as DI. pose proof (Hh_derive x s Hs) as DH.
    assert (D1 : is_derive (lowG 1) s (lowG 2 s)).
    { apply (isd_ext (fun u => - (w u * (/ L u * / L u)))); [intros u; cbn [lowG]; unfold Rdiv; f_equal; f_equal; cbn [pow]; rewrite Rmult_1_r; symmetry; apply Rinv_mult|].
      eapply isd_eq; [apply d_opp, d_mul; [exact DW|apply d_mul; exact DI]|]. cbv beta. cbn [lowG]. field. lra. }
    destruct k as [|[|[|k]]]; [| |  |lia].
    - apply (isd_ext (fun u => / L u - 1 / ln beta)); [intros u; cbn [lowG]; unfold Rdiv; ring|]. eapply isd_eq; [apply d_sub; [exact DI|apply d_const]|]. cbn [lowG]. field. lra.
    - exact D1.
    - apply (isd_ext (fun u => lowG 1 u * (Hh x u - w u * (1 + 2 * / L u)))); [intros u; cbn [lowG]; reflexivity|].
      eapply isd_eq; [apply d_mul; [exact D1|apply d_sub; [exact DH|apply d_mul; [exact DW|apply d_add; [apply d_const|apply d_mul; [apply d_const|exact DI]]]]]|].
      cbv beta. cbn [lowG]. field. lra.
  Qed.
End Lower.

(** On the lowest segment the step is Householder's third order step for the
    objective 1 / ln b(s) - 1 / ln beta, whose zero is the implied volatility. *)
Theorem lower_step_householder : forall x beta s_left s_right s, x <= 0 -> 0 < s -> 0 < beta < 1 ->
  let g := fun s => 1 / ln (nblack x s) - 1 / ln beta in
  ex_derive_n g 3 s /\ Derive g s < 0 /\ (g s = 0 <-> nblack x s = beta) /\
  lower_step x beta s_left s_right s (nblack x s) (nvega x s) =
  householder_step (- g s / Derive_n g 1 s) (Derive_n g 2 s / Derive_n g 1 s) (Derive_n g 3 s / Derive_n g 1 s).
Proof.
  intros x beta sl sr s Hx Hs Hb g. change g with (lowG x beta 0).
  pose proof (lowG_chain x beta Hx) as C. assert (C' : forall k s, (k < 3)%nat -> 0 < s -> is_derive (lowG x beta k) s (lowG x beta (S k) s)) by (intros; now apply C).
  rewrite !(pos_chain _ 3 C') by (try lia; lra). pose proof (L_neg x Hx s Hs) as LN. pose proof (w_pos x Hx s Hs) as WP. pose proof (b_range x Hx s Hs) as BR. cbv zeta in *.
  assert (BN : ln beta < 0) by (rewrite <- ln_1; apply ln_increasing; lra). pose proof (nvega_pos x s) as VP.
  assert (G1 : lowG x beta 1 s < 0). { cbn [lowG]. apply Ropp_lt_gt_0_contravar. apply Rdiv_lt_0_compat; [exact WP|]. apply pow2_gt_0. lra. }
  repeat split.
  - apply (pos_chain_ex _ 3 C'); [lia|exact Hs].
  - change (Derive (lowG x beta 0) s) with (Derive_n (lowG x beta 0) 1 s). rewrite (pos_chain _ 3 C') by (try lia; lra). exact G1.
  - cbn [lowG]. intros E. apply ln_inv; [lra|lra|]. assert (E' : 1 / ln (nblack x s) = 1 / ln beta) by lra. unfold Rdiv in E'. rewrite !Rmult_1_l in E'. rewrite <- (Rinv_inv (ln (nblack x s))), E', Rinv_inv. reflexivity.
  - intros E. cbn [lowG]. rewrite E. ring.
  - unfold lower_step. destruct (Rleb_spec (nblack x s) 0) as [N|_]; [lra|]. destruct (Rleb_spec (nvega x s) 0) as [N|_]; [lra|]. cbn [orb].
    destruct (Reqb_spec (ln (nblack x s)) 0) as [N|_]; [lra|].
    assert (N1 : nvega x s <> 0) by lra. assert (N2 : nblack x s <> 0) by lra. assert (N3 : ln (nblack x s) <> 0) by lra. assert (N4 : ln beta <> 0) by lra. assert (N5 : s <> 0) by lra.
    f_equal; cbn [lowG]; unfold Hh, Hd; field; repeat split; assumption.
Qed.
Print Assumptions lower_step_householder.
Example lower_step_case : -1 <= 0 /\ 0 < / 5 /\ 0 < / 1000 < 1. Proof. lra. Qed.

(** ** The step of the highest segment *)
Section Upper.
  Variables x beta : R.
  Let M := exp (x / 2).
  Let b s := nblack x s.
  Let v s := nvega x s.
  Let w s := v s / (M - b s).
  Definition upG (k : nat) (s : R) : R :=
    match k with
    | 0 => ln ((M - beta) / (M - b s))
    | 1 => w s
    | 2 => w s * (Hh x s + w s)
    | _ => w s * (Hh x s ^ 2 + Hd x s + w s * (2 * w s + 3 * Hh x s))
    end.
  Hypothesis Hb : beta < M.
  Lemma up_range s : 0 < s -> 0 < M - b s.
  Proof. intros Hs. pose proof (nblack_lt x s Hs). unfold M, b. lra. Qed.
  Lemma uw_derive s : 0 < s -> is_derive w s (w s * (Hh x s + w s)).
  Proof.
    intros Hs. pose proof (up_range s Hs) as B. unfold w. apply (isd_ext (fun u => v u * / (M - b u))); [reflexivity|].
    eapply isd_eq; [apply d_mul; [apply nvega_derive, Hs|apply (dinv (fun u => M - b u)); [lra|apply d_sub; [apply d_const|apply nblack_derive, Hs]]]|].
    cbv beta. fold (b s) (v s). unfold Hh. field. split; lra.
  Qed.
  Lemma upG_chain k s : (k < 3)%nat -> 0 < s -> is_derive (upG k) s (upG (S k) s).
  Proof.
    intros Hk Hs. pose proof (up_range s Hs) as B. pose proof (uw_derive s Hs) as DW. pose proof (Hh_derive x s Hs) as DH.
    destruct k as [|[|[|k]]]; [| | |lia].
    - apply (isd_ext_pos (fun u => ln (M - beta) - ln (M - b u)) (upG 0)); [exact Hs|intros u Hu; cbn [upG]; symmetry; apply ln_div; [lra|apply up_range, Hu]|].
      eapply isd_eq; [apply d_sub; [apply d_const|apply (dln (fun u => M - b u)); [exact B|apply d_sub; [apply d_const|apply nblack_derive, Hs]]]|]. cbn [upG]. unfold w, v. field. lra.
    - exact DW.
    - apply (isd_ext (fun u => w u * (Hh x u + w u))); [reflexivity|].
      eapply isd_eq; [apply d_mul; [exact DW|apply d_add; [exact DH|exact DW]]|]. cbn [upG]. ring.
  Qed.
End Upper.

(** On the highest segment the step is Householder's third order step for the
    objective ln ((b_max - beta) / (b_max - b(s))), provided vega exceeds the
    machine epsilon; otherwise it bisects. *)
Theorem upper_step_householder : forall x beta s_left s_right s, 0 < s -> beta < exp (x / 2) ->
  let g := fun s => ln ((exp (x / 2) - beta) / (exp (x / 2) - nblack x s)) in
  ex_derive_n g 3 s /\ 0 < Derive g s /\ (g s = 0 <-> nblack x s = beta) /\
  (f64_eps < nvega x s ->
   upper_step x beta (exp (/ 2 * x)) s_left s_right s (nblack x s) (nvega x s) =
   householder_step (- g s / Derive_n g 1 s) (Derive_n g 2 s / Derive_n g 1 s) (Derive_n g 3 s / Derive_n g 1 s)) /\
  (nvega x s <= f64_eps -> upper_step x beta (exp (/ 2 * x)) s_left s_right s (nblack x s) (nvega x s) = Fin ((s_left + s_right) / 2 - s)).
Proof.
  intros x beta sl sr s Hs Hb g. change g with (upG x beta 0).
  assert (C' : forall k s, (k < 3)%nat -> 0 < s -> is_derive (upG x beta k) s (upG x beta (S k) s)) by (intros; now apply upG_chain).
  rewrite !(pos_chain _ 3 C') by (try lia; lra). pose proof (up_range x s Hs) as BR. cbv zeta in *. pose proof (nvega_pos x s) as VP.
  assert (G1 : 0 < upG x beta 1 s) by (cbn [upG]; apply Rdiv_lt_0_compat; assumption).
  replace (exp (/ 2 * x)) with (exp (x / 2)) by (f_equal; field). set (M := exp (x / 2)) in *.
  split; [|split; [|split; [|split]]].
  - apply (pos_chain_ex _ 3 C'); [lia|exact Hs].
  - change (Derive (upG x beta 0) s) with (Derive_n (upG x beta 0) 1 s). rewrite (pos_chain _ 3 C') by (try lia; lra). exact G1.
  - cbn [upG]. fold M. split; [|intros E; rewrite E in *; unfold Rdiv; rewrite Rinv_r by lra; apply ln_1].
    intros E. rewrite <- ln_1 in E. apply ln_inv in E; [|apply Rdiv_lt_0_compat; lra|lra]. apply (f_equal (fun u => u * (M - nblack x s))) in E. unfold Rdiv in E. rewrite Rmult_assoc, Rinv_l in E by lra. lra.
  - intros HV. unfold upper_step. destruct (Rleb_spec M (nblack x s)) as [N|_]; [lra|]. destruct (Rleb_spec (nvega x s) f64_eps) as [N|_]; [lra|]. cbn [orb].
    assert (N1 : nvega x s <> 0) by lra. assert (N2 : M - nblack x s <> 0) by lra. assert (N5 : s <> 0) by lra.
    f_equal; cbn [upG]; fold M; unfold Hh, Hd; field; repeat split; assumption.
  - intros HV. unfold upper_step. destruct (Rleb_spec M (nblack x s)) as [N|_]; [lra|]. destruct (Rleb_spec (nvega x s) f64_eps) as [_|N]; [|lra]. cbn [orb]. f_equal. field.
Qed.
Print Assumptions upper_step_householder.
Example upper_step_case : f64_eps < nvega 0 1.
Proof.
  unfold f64_eps, nvega. replace (- / 2 * ((0 / 1) ^ 2 + (1 / 2) ^ 2)) with (- / 8) by field.
  assert (1 / 4 < / sqrt (2 * PI)).
  { assert (sqrt (2 * PI) < 4). { rewrite <- (sqrt_pow2 4) by lra. apply sqrt_lt_1_alt. pose proof PI_RGT_0. pose proof PI_4. lra. }
    unfold Rdiv. rewrite Rmult_1_l. apply Rinv_lt_contravar; [|assumption]. apply Rmult_lt_0_compat; [apply sqrt_2PI_pos|lra]. }
  assert (1 / 2 < exp (- / 8)) by (pose proof (exp_ineq1 (- / 8) ltac:(lra)); lra).
  assert (/ 2 ^ 52 < 1 / 8) by lra. nra.
Qed.

(** ** The step of the middle segments *)
(** The objective is b(s) - beta. The Newton part is right, the Halley part is
    right only at the money or at s = 1: the code divides [(x / s)^2] by nothing
    where b''(s) / b'(s) divides it by [s]. *)
Definition midG (x beta : R) (k : nat) (s : R) : R :=
  match k with
  | 0 => nblack x s - beta
  | 1 => nvega x s
  | 2 => nvega x s * Hh x s
  | _ => nvega x s * (Hh x s ^ 2 + Hd x s)
  end.
Lemma midG_chain x beta k s : (k < 3)%nat -> 0 < s -> is_derive (midG x beta k) s (midG x beta (S k) s).
Proof.
  intros Hk Hs. pose proof (Hh_derive x s Hs) as DH. destruct k as [|[|[|k]]]; [| | |lia].
  - eapply isd_eq; [apply d_sub; [apply nblack_derive, Hs|apply d_const]|]. cbn [midG]. ring.
  - apply nvega_derive, Hs.
  - eapply isd_eq; [apply d_mul; [apply nvega_derive, Hs|exact DH]|]. cbn [midG]. unfold Hh. ring.
Qed.
Theorem middle_step_newton : forall x beta s_left s_right s, 0 < s ->
  let g := fun s => nblack x s - beta in
  ex_derive_n g 3 s /\ 0 < Derive g s /\
  exists halley hh3, middle_step x beta s_left s_right s (nblack x s) (nvega x s) = householder_step (- g s / Derive g s) halley hh3 /\
    (halley = Derive_n g 2 s / Derive g s <-> x = 0 \/ s = 1) /\
    (x = 0 \/ s = 1 -> hh3 = Derive_n g 3 s / Derive g s).
Proof.
  intros x beta sl sr s Hs g. change g with (midG x beta 0).
  assert (C' : forall k s, (k < 3)%nat -> 0 < s -> is_derive (midG x beta k) s (midG x beta (S k) s)) by (intros; now apply midG_chain).
  change (Derive (midG x beta 0) s) with (Derive_n (midG x beta 0) 1 s). rewrite !(pos_chain _ 3 C') by (try lia; lra). pose proof (nvega_pos x s) as VP.
  split; [apply (pos_chain_ex _ 3 C'); [lia|exact Hs]|]. split; [exact VP|].
  exists ((x / s) ^ 2 - s / 4), (((x / s) ^ 2 - s / 4) * ((x / s) ^ 2 - s / 4) - 3 * (x / (s * s)) ^ 2 - / 4).
  cbn [midG]. split; [|split].
  - unfold middle_step. f_equal. field. lra.
  - replace (nvega x s * Hh x s / nvega x s) with (Hh x s) by (field; lra). unfold Hh. split.
    + intros E. destruct (Req_dec x 0) as [Z|Z]; [now left|]. right. assert (E2 : (x / s) ^ 2 = x ^ 2 / s ^ 3) by lra.
      apply (f_equal (fun u => u * (s ^ 3 / x ^ 2))) in E2. replace ((x / s) ^ 2 * (s ^ 3 / x ^ 2)) with s in E2 by (field; lra).
      replace (x ^ 2 / s ^ 3 * (s ^ 3 / x ^ 2)) with 1 in E2 by (field; lra). exact E2.
    + intros [->| ->]; field; lra.
  - intros [->| ->]; unfold Hh, Hd; field; lra.
Qed.
Print Assumptions middle_step_newton.
Example middle_step_case : 0 < 1 /\ -1 < 0. Proof. lra. Qed.

(** So the third order step announced by the comments is not taken: there is a
    price strictly between the bounds for which the two steps differ. *)
Theorem middle_step_refuted : exists x beta s, x < 0 /\ 0 < s /\ 0 < beta < exp (x / 2) /\
  let g := fun s => nblack x s - beta in
  forall s_left s_right,
  middle_step x beta s_left s_right s (nblack x s) (nvega x s) <>
  householder_step (- g s / Derive_n g 1 s) (Derive_n g 2 s / Derive_n g 1 s) (Derive_n g 3 s / Derive_n g 1 s).
Proof.
  set (b0 := nblack (-2) 2). set (v0 := nvega (-2) 2). pose proof (nvega_pos (-2) 2) as VP. fold v0 in VP. pose proof (nblack_pos (-2) 2 ltac:(lra)) as BP. fold b0 in BP.
  exists (-2), (b0 + / 10 * v0), 2. split; [lra|]. split; [lra|]. split.
  - split; [lra|]. assert (B : b0 < / 2 * exp (-2 / 2)).
    { unfold b0, nblack. replace (-2 / 2 + 2 / 2) with 0 by field. rewrite ncdf_0. pose proof (ncdf_bound (-2 / 2 - 2 / 2)). pose proof (exp_pos (- -2 / 2)). nra. }
    assert (V : v0 <= exp (-2 / 2)).
    { unfold v0, nvega. replace (- / 2 * ((-2 / 2) ^ 2 + (2 / 2) ^ 2)) with (-2 / 2) by field. pose proof (exp_pos (-2 / 2)). assert (/ sqrt (2 * PI) <= 1); [|nra].
      rewrite <- Rinv_1. apply Rinv_le_contravar; [lra|]. rewrite <- sqrt_1. apply sqrt_le_1_alt. pose proof PI2_3_2. lra. }
    pose proof (exp_pos (-2 / 2)). lra.
  - intros g sl sr. change g with (midG (-2) (b0 + / 10 * v0) 0).
    assert (C' : forall k s, (k < 3)%nat -> 0 < s -> is_derive (midG (-2) (b0 + / 10 * v0) k) s (midG (-2) (b0 + / 10 * v0) (S k) s)) by (intros; now apply midG_chain).
    rewrite !(pos_chain _ 3 C') by (try lia; lra). cbn [midG]. fold b0 v0. unfold middle_step, Hh, Hd.
    replace ((b0 + / 10 * v0 - b0) / v0) with (/ 10) by (field; lra).
    replace (- (b0 - (b0 + / 10 * v0)) / v0) with (/ 10) by (field; lra).
    replace (v0 * ((-2) ^ 2 / 2 ^ 3 - 2 / 4) / v0) with 0 by (field; lra).
    replace (v0 * (((-2) ^ 2 / 2 ^ 3 - 2 / 4) ^ 2 + (- 3 * (-2) ^ 2 / 2 ^ 4 - / 4)) / v0) with (-1) by (field; lra).
    unfold householder_step.
    match goal with |- (if Reqb ?a 0 then _ else _) <> _ => destruct (Reqb_spec a 0) as [N|_]; [lra|] end.
    match goal with |- _ <> (if Reqb ?a 0 then _ else _) => destruct (Reqb_spec a 0) as [N|_]; [lra|] end.
    intros E. injection E as E. lra.
Qed.
Print Assumptions middle_step_refuted.

(** ** The maps of the outer segments *)
Lemma fl_lower x s : compute_f_lower_map_and_first_two_derivatives x s =
  let z := Rabs x / (sqrt 3 * s) in let P := ncdf (- z) in
  (2 * PI / sqrt 27 * Rabs x * P ^ 3, 2 * PI * z ^ 2 * P ^ 2 * exp (z ^ 2 + s ^ 2 / 8),
   PI / 6 * z ^ 2 / (s * s * s) * P * (8 * sqrt 3 * s * Rabs x + (3 * (s * s) * (s * s - 8) - 8 * x * x) * P / npdf z) * exp (2 * z ^ 2 + / 4 * (s * s))).
Proof.
  assert (Z : SQRT_ONE_OVER_THREE * Rabs x / s = Rabs x / (sqrt 3 * s)).
  { unfold SQRT_ONE_OVER_THREE. rewrite sqrt_div_alt, sqrt_1 by lra. unfold Rdiv. rewrite Rinv_mult. ring. }
  unfold compute_f_lower_map_and_first_two_derivatives, is_below_horizon, DENORMALIZATION_CUTOFF.
  destruct (Rltb_spec (Rabs s) 0) as [N|_]; [pose proof (Rabs_pos s); lra|]. destruct (Rltb_spec (Rabs x) 0) as [N|_]; [pose proof (Rabs_pos x); lra|].
  rewrite Z. cbv zeta. set (z := Rabs x / (sqrt 3 * s)). unfold TWO_PI_OVER_SQRT_TWENTY_SEVEN, SQRT_THREE.
  f_equal; [f_equal|].
  - ring.
  - replace (z ^ 2 + s ^ 2 / 8) with (z * z + / 8 * s * s) by field. ring.
  - replace (z ^ 2) with (z * z) by ring. reflexivity.
Qed.
Lemma fl_upper x s : compute_f_upper_map_and_first_two_derivatives x s =
  (ncdf (- (s / 2)), - / 2 * exp (/ 2 * (x / s) ^ 2), sqrt (PI / 2) * exp ((x / s) ^ 2 + / 8 * s * s) * ((x / s) ^ 2 / s)).
Proof.
  unfold compute_f_upper_map_and_first_two_derivatives, is_below_horizon, DENORMALIZATION_CUTOFF.
  destruct (Rltb_spec (Rabs x) 0) as [N|_]; [pose proof (Rabs_pos x); lra|]. replace (- / 2 * s) with (- (s / 2)) by field. reflexivity.
Qed.
Lemma std_inv erf_inv z : erf_inv_spec erf_inv -> gaussian_inv_cdf erf_inv 0 1 (ncdf z) = z.
Proof.
  intros S. destruct (gaussian_cdf_quantile 0 1) as (_ & _ & _ & Q & _). { unfold gaussian_new. destruct (Rltb_spec 0 1); [reflexivity|lra]. }
  rewrite <- (Q erf_inv z S) at 2. f_equal. rewrite gcdf_ncdf by lra. f_equal. rewrite sqrt_1. field.
Qed.
Lemma sq3 : sqrt 3 * sqrt 3 = 3. Proof. apply sqrt_sqrt; lra. Qed.
Lemma sqrt3_pos : 0 < sqrt 3. Proof. apply sqrt_lt_R0; lra. Qed.
Lemma sq27 : sqrt 27 = 3 * sqrt 3.
Proof. replace 27 with (3 * 3 * 3) by lra. rewrite sqrt_mult by lra. rewrite sqrt_square by lra. reflexivity. Qed.

(** The two maps are undone by the two inverse maps. *)
Theorem map_inverses : forall erf_inv x s, erf_inv_spec erf_inv -> 0 < s ->
  (x <> 0 -> inverse_f_lower_map erf_inv x (fst (fst (compute_f_lower_map_and_first_two_derivatives x s))) = s) /\
  inverse_f_upper_map erf_inv (fst (fst (compute_f_upper_map_and_first_two_derivatives x s))) = s.
Proof.
  intros ei x s HS Hs. split.
  - intros Hx. rewrite fl_lower. cbv zeta. cbn [fst]. unfold inverse_f_lower_map, is_below_horizon, DENORMALIZATION_CUTOFF.
    match goal with |- context [Rltb (Rabs ?u) 0] => destruct (Rltb_spec (Rabs u) 0) as [N|_]; [pose proof (Rabs_pos u); lra|] end.
    pose proof (Rabs_pos_lt x Hx) as A. pose proof sqrt3_pos as S3. pose proof PI_RGT_0 as PP. unfold TWO_PI_OVER_SQRT_TWENTY_SEVEN, SQRT_THREE. rewrite sq27.
    set (z := Rabs x / (sqrt 3 * s)). pose proof (ncdf_bound (- z)) as B.
    replace (2 * PI / (3 * sqrt 3) * Rabs x * ncdf (- z) ^ 3 / (2 * PI / (3 * sqrt 3) * Rabs x)) with (ncdf (- z) ^ 3) by (field; lra).
    rewrite <- Rpower_pow by lra. rewrite Rpower_mult. replace (INR 3 * (1 / 3)) with 1 by (simpl; field). rewrite Rpower_1 by lra. rewrite std_inv by exact HS.
    assert (Zp : 0 < z) by (unfold z; apply Rdiv_lt_0_compat; [exact A|apply Rmult_lt_0_compat; lra]).
    replace (x / (sqrt 3 * - z)) with (- (x / (sqrt 3 * z))) by (field; lra). rewrite Rabs_Ropp. unfold Rdiv. rewrite Rabs_mult, (Rabs_right (/ _)) by (left; apply Rinv_0_lt_compat, Rmult_lt_0_compat; lra).
    unfold z. field. lra.
  - rewrite fl_upper. cbn [fst]. unfold inverse_f_upper_map. rewrite std_inv by exact HS. field.
Qed.
Print Assumptions map_inverses.
Example map_inverses_case : (exists e, erf_inv_spec e) /\ 0 < / 2 /\ -1 <> 0.
Proof. split; [exact erf_inv_exists|]. split; lra. Qed.

(** The slopes and curvatures handed to the interpolation are the first and
    second derivative of the maps with respect to the normalised price. *)
Theorem map_derivatives : forall x s, x <> 0 -> 0 < s ->
  let lo s := compute_f_lower_map_and_first_two_derivatives x s in
  let up s := compute_f_upper_map_and_first_two_derivatives x s in
  is_derive (fun s => fst (fst (lo s))) s (snd (fst (lo s)) * Derive (fun s => nblack x s) s) /\
  is_derive (fun s => snd (fst (lo s))) s (snd (lo s) * Derive (fun s => nblack x s) s) /\
  is_derive (fun s => fst (fst (up s))) s (snd (fst (up s)) * Derive (fun s => nblack x s) s) /\
  is_derive (fun s => snd (fst (up s))) s (snd (up s) * Derive (fun s => nblack x s) s).
Proof.
  intros x s Hx Hs lo up. replace (Derive (fun s => nblack x s) s) with (nvega x s) by (symmetry; apply is_derive_unique, nblack_derive, Hs).
  pose proof (Rabs_pos_lt x Hx) as A. pose proof sqrt3_pos as S3. pose proof PI_RGT_0 as PP. pose proof sqrt_2PI_pos as Q.
  assert (X2 : x ^ 2 = Rabs x ^ 2) by (rewrite <- !Rsqr_pow2; apply Rsqr_abs).
  assert (S32 : sqrt 3 ^ 2 = 3) by (replace (sqrt 3 ^ 2) with (sqrt 3 * sqrt 3) by ring; apply sq3).
  set (z := fun s => Rabs x / (sqrt 3 * s)).
  assert (Dz : is_derive z s (- z s / s)). { unfold z. auto_derive; [apply Rgt_not_eq, Rmult_lt_0_compat; lra|]. match goal with |- ?u = ?v => change (@eq R u v) end. field. lra. }
  assert (DP : is_derive (fun s => ncdf (- z s)) s (npdf (z s) * (z s / s))).
  { eapply isd_eq; [apply (d_ncdf (fun s => - z s)), d_opp, Dz|]. replace (npdf (- z s)) with (npdf (z s)) by (unfold npdf; do 3 f_equal; ring). field. lra. }
  assert (Zs : x ^ 2 = 3 * z s ^ 2 * s ^ 2).
  { unfold z. rewrite X2. replace ((Rabs x / (sqrt 3 * s)) ^ 2) with (Rabs x ^ 2 / (sqrt 3 ^ 2 * s ^ 2)) by (field; lra). rewrite S32. field. lra. }
  assert (V : nvega x s = npdf (z s) / exp (z s ^ 2 + s ^ 2 / 8)).
  { transitivity (npdf (z s) * exp (- (z s ^ 2 + s ^ 2 / 8))); [|rewrite exp_Ropp; reflexivity]. unfold nvega, npdf. rewrite Rmult_assoc, <- exp_plus. f_equal. f_equal. replace ((x / s) ^ 2) with (3 * z s ^ 2); [field|]. 
    replace ((x / s) ^ 2) with (x ^ 2 / s ^ 2) by (field; lra). rewrite Zs. field. lra. }
  pose proof (npdf_pos (z s)) as NP. pose proof (exp_pos (z s ^ 2 + s ^ 2 / 8)) as EP.
  assert (AX : Rabs x = sqrt 3 * s * z s) by (unfold z; field; lra).
  split; [|split; [|split]].
  - apply (isd_ext (fun s => 2 * PI / sqrt 27 * Rabs x * (ncdf (- z s) * ncdf (- z s) * ncdf (- z s)))).
    { intros u. unfold lo. rewrite fl_lower. cbv zeta. cbn [fst]. fold (z u). ring. }
    eapply isd_eq; [apply d_mul; [apply d_const|apply d_mul; [apply d_mul; exact DP|exact DP]]|]. cbv beta. unfold lo. rewrite fl_lower. cbv zeta. cbn [fst snd]. fold (z s). rewrite V, sq27, AX.
    replace (ncdf (- z s) ^ 2) with (ncdf (- z s) * ncdf (- z s)) by ring. field. lra.
  - apply (isd_ext (fun s => 2 * PI * (z s * z s) * (ncdf (- z s) * ncdf (- z s)) * exp (z s * z s + / 8 * (s * s)))).
    { intros u. unfold lo. rewrite fl_lower. cbv zeta. cbn [fst snd]. fold (z u). replace (z u ^ 2 + u ^ 2 / 8) with (z u * z u + / 8 * (u * u)) by field. ring. }
    assert (DE : is_derive (fun s => exp (z s * z s + / 8 * (s * s))) s ((- 2 * (z s * z s) / s + s / 4) * exp (z s * z s + / 8 * (s * s)))).
    { eapply isd_eq; [apply (is_derive_comp exp (fun s => z s * z s + / 8 * (s * s)) s (exp (z s * z s + / 8 * (s * s))) (- 2 * (z s * z s) / s + s / 4)); [apply is_derive_exp|]|reflexivity].
      eapply isd_eq; [apply d_add; [apply d_mul; exact Dz|apply d_mul; [apply d_const|apply d_mul; apply d_id]]|]. cbv beta. field. lra. }
    eapply isd_eq; [apply d_mul; [apply d_mul; [apply d_mul; [apply d_const|apply d_mul; exact Dz]|apply d_mul; exact DP]|exact DE]|]. cbv beta. unfold lo. rewrite fl_lower. cbv zeta. cbn [fst snd]. fold (z s).
    replace (z s * z s + / 8 * (s * s)) with (z s ^ 2 + s ^ 2 / 8) by field.
    replace (2 * z s ^ 2 + / 4 * (s * s)) with ((z s ^ 2 + s ^ 2 / 8) + (z s ^ 2 + s ^ 2 / 8)) by field. rewrite (exp_plus (z s ^ 2 + s ^ 2 / 8) (z s ^ 2 + s ^ 2 / 8)).
    replace (8 * x * x) with (8 * x ^ 2) by ring. rewrite Zs, V, AX.
    set (E := exp (z s ^ 2 + s ^ 2 / 8)) in *. set (N := npdf (z s)) in *. set (P := ncdf (- z s)). set (zz := z s) in *. clearbody E N P zz.
    replace (8 * sqrt 3 * s * (sqrt 3 * s * zz)) with (24 * s * s * zz) by (replace (8 * sqrt 3 * s * (sqrt 3 * s * zz)) with (8 * (sqrt 3 ^ 2) * s * s * zz) by ring; rewrite S32; ring).
    field. lra.
  - apply (isd_ext (fun s => ncdf (- (s / 2)))). { intros u. unfold up. rewrite fl_upper. reflexivity. }
    eapply isd_eq; [apply (d_ncdf (fun s => - (s / 2)) s (- / 2)); auto_derive; [exact I|match goal with |- ?u = ?v => change (@eq R u v) end; field]|].
    unfold up. rewrite fl_upper. cbn [fst snd]. unfold nvega, npdf.
    replace (- / 2 * ((x / s) ^ 2 + (s / 2) ^ 2)) with (- (/ 2 * (x / s) ^ 2) + - / 2 * (- (s / 2)) ^ 2) by (field; lra). rewrite exp_plus, exp_Ropp. pose proof (exp_pos (/ 2 * (x / s) ^ 2)). field. lra.
  - apply (isd_ext (fun s => - / 2 * exp (/ 2 * (x / s) ^ 2))). { intros u. unfold up. rewrite fl_upper. reflexivity. }
    eapply isd_eq; [apply d_mul; [apply d_const|apply (is_derive_comp exp (fun s => / 2 * (x / s) ^ 2) s (exp (/ 2 * (x / s) ^ 2)) (- (x ^ 2) / s ^ 3)); [apply is_derive_exp|auto_derive; [lra|match goal with |- ?u = ?v => change (@eq R u v) end; field; lra]]]|].
    unfold up. rewrite fl_upper. cbn [fst snd]. unfold scal; simpl; unfold mult; simpl. unfold nvega.
    assert (SP : sqrt (PI / 2) = sqrt (2 * PI) / 2). { replace (2 * PI) with (PI / 2 * (2 * 2)) by field. rewrite sqrt_mult by lra. rewrite sqrt_square by lra. field. }
    rewrite SP. replace (exp (x / s * (x / s * 1) + / 8 * s * s)) with (exp (/ 2 * (x / s * (x / s * 1))) * exp (/ 2 * (x / s * (x / s * 1)) + / 8 * s * s)) by (rewrite <- exp_plus; f_equal; field; lra).
    replace (- / 2 * ((x / s) ^ 2 + (s / 2) ^ 2)) with (- (/ 2 * (x / s * (x / s * 1)) + / 8 * s * s)) by (field; lra). rewrite exp_Ropp.
    pose proof (exp_pos (/ 2 * (x / s * (x / s * 1)) + / 8 * s * s)). field. lra.
Qed.
Print Assumptions map_derivatives.
Example map_derivatives_case : -1 <> 0 /\ 0 < / 2. Proof. lra. Qed.

(** Which objective is iterated: 1 / ln b below the lower inflection tangent, the log
    ratio above the upper one and half the cap, the price itself between. *)
Theorem segment_objective : forall erf_inv beta x s_left s_right s, x <= 0 -> 0 < s -> 0 < beta < exp (x / 2) ->
  let s_c := sqrt (Rabs (2 * x)) in
  let b_c := normalised_black_call x s_c in
  let v_c := normalised_vega x s_c in
  let s_l := s_c - b_c / v_c in
  let s_u := if Rltb f64_eps v_c then s_c + (exp (x / 2) - b_c) / v_c else s_c in
  let low := beta < b_c /\ beta < normalised_black_call x s_l in
  let high := b_c <= beta /\ normalised_black_call x s_u < beta /\ exp (x / 2) / 2 < beta in
  let step := sg_step (choose_segment erf_inv beta x) s_left s_right s (nblack x s) (nvega x s) in
  let householder g := householder_step (- g s / Derive_n g 1 s) (Derive_n g 2 s / Derive_n g 1 s) (Derive_n g 3 s / Derive_n g 1 s) in
  (low -> step = householder (fun s => 1 / ln (nblack x s) - 1 / ln beta)) /\
  (high -> f64_eps < nvega x s -> step = householder (fun s => ln ((exp (x / 2) - beta) / (exp (x / 2) - nblack x s)))) /\
  (~ low -> ~ high -> let g := fun s => nblack x s - beta in exists halley hh3, step = householder_step (- g s / Derive g s) halley hh3).
Proof.
  intros erf_inv beta x sl sr s Hx Hs Hb s_c b_c v_c s_l s_u low high step hh.
  assert (M1 : exp (x / 2) <= 1). { rewrite <- exp_0. destruct (Req_dec x 0) as [->|]; [right; f_equal; field|left; apply exp_increasing; lra]. }
  assert (X2 : exp (/ 2 * x) = exp (x / 2)) by (f_equal; field).
  assert (ST : sg_step (choose_segment erf_inv beta x) =
    if Rltb beta b_c then (if Rltb beta (normalised_black_call x s_l) then lower_step x beta else middle_step x beta)
    else if Rleb beta (normalised_black_call x s_u) then middle_step x beta
    else if Rltb (/ 2 * exp (/ 2 * x)) beta then upper_step x beta (exp (/ 2 * x)) else middle_step x beta).
  { unfold choose_segment. cbv zeta. fold s_c. fold b_c. fold v_c. fold s_l. rewrite X2. fold s_u.
    destruct (Rltb beta b_c).
    - destruct (Rltb beta (normalised_black_call x s_l)); [|reflexivity]. unfold lowest_segment. destruct (compute_f_lower_map_and_first_two_derivatives x s_l) as [[? ?] ?]. reflexivity.
    - destruct (Rleb beta (normalised_black_call x s_u)); [reflexivity|]. unfold highest_segment. destruct (compute_f_upper_map_and_first_two_derivatives x s_u) as [[? ?] ?]. reflexivity. }
  unfold step. rewrite ST. clear step ST. unfold hh, low, high. clear hh.
  destruct (middle_step_newton x beta sl sr s Hs) as (_ & _ & halley & hh3 & EM & _). cbv zeta in EM.
  repeat split.
  - intros [H1 H2]. destruct (Rltb_spec beta b_c); [|lra]. destruct (Rltb_spec beta (normalised_black_call x s_l)); [|lra].
    destruct (lower_step_householder x beta sl sr s Hx Hs ltac:(lra)) as (_ & _ & _ & E). exact E.
  - intros (H1 & H2 & H3) HE. destruct (Rltb_spec beta b_c); [lra|]. destruct (Rleb_spec beta (normalised_black_call x s_u)); [lra|].
    destruct (Rltb_spec (/ 2 * exp (/ 2 * x)) beta) as [q|q]; rewrite X2 in q; [|lra].
    destruct (upper_step_householder x beta sl sr s Hs ltac:(lra)) as (_ & _ & _ & E & _). exact (E HE).
  - intros NL NH. cbv zeta. exists halley, hh3.
    destruct (Rltb_spec beta b_c); [destruct (Rltb_spec beta (normalised_black_call x s_l)); [exfalso; apply NL; split; assumption|exact EM]|].
    destruct (Rleb_spec beta (normalised_black_call x s_u)); [exact EM|]. destruct (Rltb_spec (/ 2 * exp (/ 2 * x)) beta) as [q|q]; rewrite X2 in q; [|exact EM].
    exfalso. apply NH. repeat split; lra.
Qed.
Print Assumptions segment_objective.
Example segment_objective_case : (-1 <= 0) /\ 0 < 1 /\ 0 < exp (-1 / 2) / 2 < exp (-1 / 2).
Proof. pose proof (exp_pos (-1 / 2)). lra. Qed.
