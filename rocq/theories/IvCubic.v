(** The rational cubic interpolation of implied_volatility.rs (Delbourgo and
    Gregory): it passes through its nodes with the prescribed slopes, its control
    parameter reproduces a prescribed second derivative, and it is monotone when
    the data are. *)
From Coq Require Import Reals Lra Lia Psatz Arith Bool.
From Coquelicot Require Import Coquelicot.
From Verif Require Import Res InterpModel SpecialFns BsmProofs IvModel IvMath IvExp.
Open Scope R_scope.

Ltac req := match goal with |- ?a = ?b => change (@eq R a b) end.

(** the closed form *)
Definition cubic (h y_l y_r d_l d_r r t : R) : R :=
  (y_r * (t * t) * t + (r * y_r - h * d_r) * (t * t) * (1 - t) + (r * y_l + h * d_l) * t * ((1 - t) * (1 - t)) + y_l * ((1 - t) * (1 - t)) * (1 - t))
  / (1 + (r - 3) * t * (1 - t)).
Lemma interpolation_cubic x x_l x_r y_l y_r d_l d_r r : x_l < x_r -> r < MAXIMUM_RATIONAL_CUBIC_CONTROL_PARAMETER_VALUE ->
  interpolation x x_l x_r y_l y_r d_l d_r (Fin r) = cubic (x_r - x_l) y_l y_r d_l d_r r ((x - x_l) / (x_r - x_l)).
Proof.
  intros L Hr. unfold interpolation, below_max. destruct (Rleb_spec (Rabs (x_r - x_l)) 0) as [H|_]; [rewrite Rabs_right in H by lra; lra|].
  destruct (Rltb_spec r MAXIMUM_RATIONAL_CUBIC_CONTROL_PARAMETER_VALUE); [reflexivity|contradiction].
Qed.
Lemma interpolation_linear x x_l x_r y_l y_r d_l d_r r : x_l < x_r -> below_max r = None ->
  interpolation x x_l x_r y_l y_r d_l d_r r = y_r * ((x - x_l) / (x_r - x_l)) + y_l * (1 - (x - x_l) / (x_r - x_l)).
Proof.
  intros L Hr. unfold interpolation. destruct (Rleb_spec (Rabs (x_r - x_l)) 0) as [H|_]; [rewrite Rabs_right in H by lra; lra|]. now rewrite Hr.
Qed.
Lemma below_max_case r : (exists r0, r = Fin r0 /\ r0 < MAXIMUM_RATIONAL_CUBIC_CONTROL_PARAMETER_VALUE) \/ below_max r = None.
Proof.
  destruct r; [|right; reflexivity..]. unfold below_max. destruct (Rltb_spec x MAXIMUM_RATIONAL_CUBIC_CONTROL_PARAMETER_VALUE); [left; eauto|now right].
Qed.
Lemma unit_range x a b : a < b -> a <= x <= b -> 0 <= (x - a) / (b - a) <= 1.
Proof.
  intros L [H1 H2]. assert (0 < b - a) by lra. split; [unfold Rdiv; apply Rmult_le_pos; [lra|left; apply Rinv_0_lt_compat; lra]|].
  apply Rmult_le_reg_r with (b - a); [lra|]. unfold Rdiv. rewrite Rmult_assoc, Rinv_l by lra. lra.
Qed.
Lemma den_pos r t : -1 < r -> 0 <= t <= 1 -> 0 < 1 + (r - 3) * t * (1 - t).
Proof.
  intros Hr [H1 H2]. assert (A : 0 <= t * (1 - t)) by (apply Rmult_le_pos; lra). assert (B : t * (1 - t) <= / 4) by (pose proof (pow2_ge_0 (t - / 2)); nra).
  replace ((r - 3) * t * (1 - t)) with ((r + 1) * (t * (1 - t)) - 4 * (t * (1 - t))) by ring.
  destruct (Rle_lt_or_eq_dec _ _ A) as [P|P]; [assert (0 < (r + 1) * (t * (1 - t))) by (apply Rmult_lt_0_compat; lra); lra|rewrite <- P; lra].
Qed.

(** the slope in [t] *)
Definition slope_num (h y_l y_r d_l d_r r t : R) : R :=
  let D := (y_r - y_l) / h in
  d_r * t ^ 4 + 2 * (r * D - d_l) * t ^ 3 * (1 - t) + ((r * r + 3) * D - r * (d_l + d_r)) * t ^ 2 * (1 - t) ^ 2
  + 2 * (r * D - d_r) * t * (1 - t) ^ 3 + d_l * (1 - t) ^ 4.
Lemma cubic_derive h y_l y_r d_l d_r r t : h <> 0 -> 1 + (r - 3) * t * (1 - t) <> 0 ->
  is_derive (cubic h y_l y_r d_l d_r r) t (h * slope_num h y_l y_r d_l d_r r t / (1 + (r - 3) * t * (1 - t)) ^ 2).
Proof.
  intros Hh Hd. unfold cubic, slope_num. auto_derive; [exact Hd|]. req. field. split; assumption.
Qed.
Lemma interpolation_derive x x_l x_r y_l y_r d_l d_r r : x_l < x_r -> r < MAXIMUM_RATIONAL_CUBIC_CONTROL_PARAMETER_VALUE ->
  let t := (x - x_l) / (x_r - x_l) in 1 + (r - 3) * t * (1 - t) <> 0 ->
  is_derive (fun x => interpolation x x_l x_r y_l y_r d_l d_r (Fin r)) x
    (slope_num (x_r - x_l) y_l y_r d_l d_r r t / (1 + (r - 3) * t * (1 - t)) ^ 2).
Proof.
  intros L Hr t Hd. apply (isd_ext (fun x => cubic (x_r - x_l) y_l y_r d_l d_r r ((x - x_l) / (x_r - x_l)))).
  { intros. symmetry. now apply interpolation_cubic. }
  eapply isd_eq; [apply (is_derive_comp (cubic (x_r - x_l) y_l y_r d_l d_r r) (fun x => (x - x_l) / (x_r - x_l)) x ((x_r - x_l) * slope_num (x_r - x_l) y_l y_r d_l d_r r t / (1 + (r - 3) * t * (1 - t)) ^ 2) (/ (x_r - x_l)))|].
  - apply cubic_derive; [lra|exact Hd].
  - auto_derive; [exact I|]. req. field. lra.
  - fold t. unfold scal; simpl; unfold mult; simpl. field. split; [|lra]. simpl in Hd. exact Hd.
Qed.

(** *** through the nodes, with the given slopes *)
Theorem cubic_nodes : forall x_l x_r y_l y_r d_l d_r r, x_l < x_r ->
  interpolation x_l x_l x_r y_l y_r d_l d_r r = y_l /\ interpolation x_r x_l x_r y_l y_r d_l d_r r = y_r.
Proof.
  intros x_l x_r y_l y_r d_l d_r r L. assert (T0 : (x_l - x_l) / (x_r - x_l) = 0) by (field; lra). assert (T1 : (x_r - x_l) / (x_r - x_l) = 1) by (field; lra).
  destruct (below_max_case r) as [(r0 & -> & Hr)|Hr].
  - rewrite !interpolation_cubic by assumption. rewrite T0, T1. unfold cubic. split; field_simplify; lra.
  - rewrite !interpolation_linear by assumption. rewrite T0, T1. split; ring.
Qed.
Theorem cubic_slopes : forall x_l x_r y_l y_r d_l d_r r, x_l < x_r -> r < MAXIMUM_RATIONAL_CUBIC_CONTROL_PARAMETER_VALUE ->
  is_derive (fun x => interpolation x x_l x_r y_l y_r d_l d_r (Fin r)) x_l d_l /\
  is_derive (fun x => interpolation x x_l x_r y_l y_r d_l d_r (Fin r)) x_r d_r.
Proof.
  intros x_l x_r y_l y_r d_l d_r r L Hr. assert (T0 : (x_l - x_l) / (x_r - x_l) = 0) by (field; lra). assert (T1 : (x_r - x_l) / (x_r - x_l) = 1) by (field; lra). split.
  - eapply isd_eq; [apply interpolation_derive; [exact L|exact Hr|cbv zeta; rewrite T0; lra]|]. rewrite T0. unfold slope_num. field. lra.
  - eapply isd_eq; [apply interpolation_derive; [exact L|exact Hr|cbv zeta; rewrite T1; lra]|]. rewrite T1. unfold slope_num. field. lra.
Qed.

(** *** the control parameter fits the second derivative *)
Lemma slope_derive_0 h y_l y_r d_l d_r r : h <> 0 ->
  is_derive (fun t => slope_num h y_l y_r d_l d_r r t / (1 + (r - 3) * t * (1 - t)) ^ 2) 0 (2 * (r * ((y_r - y_l) / h - d_l) - (d_r - d_l))).
Proof. intros Hh. unfold slope_num. auto_derive; [apply Rgt_not_eq; simpl; lra|]. req. field. lra. Qed.
Lemma slope_derive_1 h y_l y_r d_l d_r r : h <> 0 ->
  is_derive (fun t => slope_num h y_l y_r d_l d_r r t / (1 + (r - 3) * t * (1 - t)) ^ 2) 1 (2 * (r * (d_r - (y_r - y_l) / h) - (d_r - d_l))).
Proof. intros Hh. unfold slope_num. auto_derive; [apply Rgt_not_eq; simpl; lra|]. req. field. lra. Qed.
Lemma den_near r a : a = 0 \/ a = 1 -> locally a (fun t : R => 1 + (r - 3) * t * (1 - t) <> 0).
Proof.
  intros Ha. assert (C : continuous (fun t : R => 1 + (r - 3) * t * (1 - t)) a).
  { apply (@ex_derive_continuous R_AbsRing R_NormedModule). auto_derive. exact I. }
  apply (C (fun y => y <> 0)). exists (mkposreal (/ 2) ltac:(lra)). intros y Hy. unfold ball in Hy; simpl in Hy; unfold AbsRing_ball, abs, minus, plus, opp in Hy; simpl in Hy.
  intros ->. replace (0 + - (1 + (r - 3) * a * (1 - a))) with (-1) in Hy by (destruct Ha; subst; ring). rewrite Rabs_left in Hy; lra.
Qed.
Lemma interpolation_second x_l x_r y_l y_r d_l d_r r a c : x_l < x_r -> r < MAXIMUM_RATIONAL_CUBIC_CONTROL_PARAMETER_VALUE ->
  a = x_l \/ a = x_r ->
  is_derive (fun t => slope_num (x_r - x_l) y_l y_r d_l d_r r t / (1 + (r - 3) * t * (1 - t)) ^ 2) ((a - x_l) / (x_r - x_l)) c ->
  is_derive_n (fun x => interpolation x x_l x_r y_l y_r d_l d_r (Fin r)) 2 a (c / (x_r - x_l)).
Proof.
  intros L Hr Ha Hc. simpl. assert (Ta : (a - x_l) / (x_r - x_l) = 0 \/ (a - x_l) / (x_r - x_l) = 1).
  { destruct Ha as [-> | ->]; [left|right]; field; lra. }
  assert (DT : is_derive (fun x : R => (x - x_l) / (x_r - x_l)) a (/ (x_r - x_l))) by (auto_derive; [exact I|req; field; lra]).
  assert (CT : continuous (fun x : R => (x - x_l) / (x_r - x_l)) a) by (apply (@ex_derive_continuous R_AbsRing R_NormedModule); eexists; exact DT).
  apply (is_derive_ext_loc (fun x => (fun t => slope_num (x_r - x_l) y_l y_r d_l d_r r t / (1 + (r - 3) * t * (1 - t)) ^ 2) ((x - x_l) / (x_r - x_l)))).
  - pose proof (CT _ (den_near r _ Ta)) as N. unfold filtermap in N. apply (filter_imp _ _) with (2 := N). intros y Hy. symmetry. apply is_derive_unique.
    apply (interpolation_derive y x_l x_r y_l y_r d_l d_r r L Hr). exact Hy.
  - eapply isd_eq; [apply (is_derive_comp (fun t => slope_num (x_r - x_l) y_l y_r d_l d_r r t / (1 + (r - 3) * t * (1 - t)) ^ 2) (fun x => (x - x_l) / (x_r - x_l)) a c (/ (x_r - x_l)) Hc DT)|].
    unfold scal; simpl; unfold mult; simpl. field. lra.
Qed.
Theorem cubic_second_derivative : forall x_l x_r y_l y_r d_l d_r dd, x_l < x_r ->
  (let r := rational_cubic_control_parameter_to_fit_second_derivative_at_left_side x_l x_r y_l y_r d_l d_r dd in
   let D := (y_r - y_l) / (x_r - x_l) in
   r < MAXIMUM_RATIONAL_CUBIC_CONTROL_PARAMETER_VALUE ->
   f64_min_pos <= Rabs (/ 2 * (x_r - x_l) * dd + (d_r - d_l)) -> f64_min_pos <= Rabs (D - d_l) ->
   is_derive_n (fun x => interpolation x x_l x_r y_l y_r d_l d_r (Fin r)) 2 x_l dd) /\
  (let r := rational_cubic_control_parameter_to_fit_second_derivative_at_right_side x_l x_r y_l y_r d_l d_r dd in
   let D := (y_r - y_l) / (x_r - x_l) in
   r < MAXIMUM_RATIONAL_CUBIC_CONTROL_PARAMETER_VALUE ->
   f64_min_pos <= Rabs (/ 2 * (x_r - x_l) * dd + (d_r - d_l)) -> f64_min_pos <= Rabs (d_r - D) ->
   is_derive_n (fun x => interpolation x x_l x_r y_l y_r d_l d_r (Fin r)) 2 x_r dd).
Proof.
  intros x_l x_r y_l y_r d_l d_r dd L. assert (MP : 0 < f64_min_pos) by (unfold f64_min_pos; apply Rinv_0_lt_compat, pow_lt; lra).
  assert (NZ : forall a, f64_min_pos <= Rabs a -> a <> 0 /\ is_zero a = false).
  { intros a H. split; [intros ->; rewrite Rabs_R0 in H; lra|]. unfold is_zero. destruct (Rltb_spec (Rabs a) f64_min_pos); [lra|reflexivity]. }
  split; intros r D Hr H1 H2; destruct (NZ _ H1) as [N1 Z1], (NZ _ H2) as [N2 Z2].
  - assert (Er : r = (/ 2 * (x_r - x_l) * dd + (d_r - d_l)) / (D - d_l)).
    { unfold r, rational_cubic_control_parameter_to_fit_second_derivative_at_left_side. cbv zeta. fold D. now rewrite Z1, Z2. }
    clearbody r.
    replace dd with (2 * (r * (D - d_l) - (d_r - d_l)) / (x_r - x_l)) by (rewrite Er; field; split; first [exact N2|lra]).
    apply interpolation_second; [exact L|exact Hr|now left|]. replace ((x_l - x_l) / (x_r - x_l)) with 0 by (field; lra). apply slope_derive_0. lra.
  - assert (Er : r = (/ 2 * (x_r - x_l) * dd + (d_r - d_l)) / (d_r - D)).
    { unfold r, rational_cubic_control_parameter_to_fit_second_derivative_at_right_side. cbv zeta. fold D. now rewrite Z1, Z2. }
    clearbody r.
    replace dd with (2 * (r * (d_r - D) - (d_r - d_l)) / (x_r - x_l)) by (rewrite Er; field; split; first [exact N2|lra]).
    apply interpolation_second; [exact L|exact Hr|now right|]. replace ((x_r - x_l) / (x_r - x_l)) with 1 by (field; lra). apply slope_derive_1. lra.
Qed.

(** *** monotone data give a monotone interpolant *)
Lemma fmax_ge_l a b x : fmax a b = Fin x -> (forall y, a = Fin y -> y <= x) /\ (forall y, b = Fin y -> y <= x).
Proof.
  destruct a, b; simpl; intros E; inversion E; subst; split; intros y Ey; inversion Ey; subst; try lra; [apply Rmax_l|apply Rmax_r].
Qed.
(** the control parameters are positive, and never minus infinity or NaN *)
Lemma min_control_cases d_l d_r s p : minimum_rational_cubic_control_parameter d_l d_r s p = PosInf \/
  exists r, minimum_rational_cubic_control_parameter d_l d_r s p = Fin r /\ MINIMUM_RATIONAL_CUBIC_CONTROL_PARAMETER_VALUE <= r.
Proof.
  unfold minimum_rational_cubic_control_parameter. cbv zeta.
  assert (G : forall v, fmax (Fin MINIMUM_RATIONAL_CUBIC_CONTROL_PARAMETER_VALUE) v = PosInf \/
     exists r, fmax (Fin MINIMUM_RATIONAL_CUBIC_CONTROL_PARAMETER_VALUE) v = Fin r /\ MINIMUM_RATIONAL_CUBIC_CONTROL_PARAMETER_VALUE <= r).
  { intros [x| | |]; simpl; [right; eexists; split; [reflexivity|apply Rmax_l]|now left|right; eexists; split; [reflexivity|lra]..]. }
  match goal with |- context [if ?b then _ else _] => destruct b end; [right; eexists; split; [reflexivity|lra]|apply G].
Qed.
Lemma fmax3 m y b r : fmax (Fin m) (fmax (Fin y) b) = Fin r -> y <= r.
Proof.
  destruct b as [z| | |]; cbn [fmax]; intros E; inversion E; subst; clear.
  - eapply Rle_trans; [apply Rmax_l|apply Rmax_r].
  - apply Rmax_r.
  - apply Rmax_r.
Qed.
(** the monotonicity condition *)
Lemma min_control_monotone d_l d_r s p r : 0 <= d_l * s -> 0 <= d_r * s -> (f64_min_pos <= Rabs s \/ p = true) ->
  minimum_rational_cubic_control_parameter d_l d_r s p = Fin r -> r < MAXIMUM_RATIONAL_CUBIC_CONTROL_PARAMETER_VALUE ->
  s <> 0 /\ (d_r + d_l) / s <= r.
Proof.
  intros H1 H2 H3 E Hr. assert (MP : 0 < f64_min_pos) by (unfold f64_min_pos; apply Rinv_0_lt_compat, pow_lt; lra).
  unfold minimum_rational_cubic_control_parameter in E. cbv zeta in E.
  destruct (Rleb_spec 0 (d_l * s)) as [_|N]; [|contradiction]. destruct (Rleb_spec 0 (d_r * s)) as [_|N]; [|contradiction]. cbn [negb andb] in E.
  unfold is_zero at 1 in E. destruct (Rltb_spec (Rabs s) f64_min_pos) as [Z|Z]; cbn [negb] in E.
  - destruct H3 as [H3|H3]; [lra|]. rewrite H3 in E. apply fmax3 in E. lra.
  - apply fmax3 in E. split; [|exact E]. intros ->. rewrite Rabs_R0 in Z. lra.
Qed.
(** the parameter the two calls of the code use *)
Lemma convex_control_monotone (rf : R) d_l d_r D p r : 0 <= d_l * D -> 0 <= d_r * D -> (f64_min_pos <= Rabs D \/ p = true) ->
  fmax (Fin rf) (minimum_rational_cubic_control_parameter d_l d_r D p) = Fin r -> r < MAXIMUM_RATIONAL_CUBIC_CONTROL_PARAMETER_VALUE ->
  D <> 0 /\ (d_r + d_l) / D <= r /\ 0 < r.
Proof.
  intros H1 H2 H3 E Hr. destruct (min_control_cases d_l d_r D p) as [C|(m & C & Hm)]; rewrite C in E; cbn [fmax] in E; [discriminate|].
  inversion E; subst r. pose proof (Rmax_r rf m). pose proof (Rmax_l rf m).
  destruct (min_control_monotone d_l d_r D p m H1 H2 H3 C) as [N B]; [lra|]. split; [exact N|].
  assert (0 < MINIMUM_RATIONAL_CUBIC_CONTROL_PARAMETER_VALUE) by (apply Rinv_0_lt_compat, pow_lt; lra). lra.
Qed.
Lemma mono_from_slope (f df : R -> R) a b : (forall x, a <= x <= b -> is_derive f x (df x)) -> (forall x, a <= x <= b -> 0 <= df x) ->
  forall x y, a <= x -> x <= y -> y <= b -> f x <= f y.
Proof.
  intros D P x y Hx [L| ->] Hy; [|lra]. destruct (mvt f df x y L) as (c & Hc & E); [intros; apply D; lra|].
  assert (0 <= df c) by (apply P; lra). nra.
Qed.
Lemma slope_num_pos h y_l y_r d_l d_r r t : let D := (y_r - y_l) / h in 0 < D -> 0 <= d_l -> 0 <= d_r -> 0 < r -> d_r + d_l <= r * D -> 0 <= t <= 1 ->
  0 <= slope_num h y_l y_r d_l d_r r t.
Proof.
  intros D HD Hl Hr Pr HB [T0 T1]. unfold slope_num. cbv zeta. fold D.
  assert (P : forall n, 0 <= t ^ n) by (intros; apply pow_le; lra). assert (Q : forall n, 0 <= (1 - t) ^ n) by (intros; apply pow_le; lra).
  assert (B : 0 <= (r * r + 3) * D - r * (d_l + d_r)) by nra.
  pose proof (P 1%nat) as P1. rewrite pow_1 in P1. pose proof (Q 1%nat) as Q1. rewrite pow_1 in Q1.
  repeat apply Rplus_le_le_0_compat; repeat apply Rmult_le_pos; auto; lra.
Qed.
(** the interpolant of increasing data, for any control parameter the code can choose *)
Theorem cubic_monotone : forall x_l x_r y_l y_r d_l d_r rf p,
  let D := (y_r - y_l) / (x_r - x_l) in let r := fmax (Fin rf) (minimum_rational_cubic_control_parameter d_l d_r D p) in
  x_l < x_r -> y_l < y_r -> 0 <= d_l -> 0 <= d_r -> (f64_min_pos <= D \/ p = true) ->
  forall x y, x_l <= x -> x <= y -> y <= x_r ->
  y_l <= interpolation x x_l x_r y_l y_r d_l d_r r <= interpolation y x_l x_r y_l y_r d_l d_r r /\
  interpolation y x_l x_r y_l y_r d_l d_r r <= y_r.
Proof.
  intros x_l x_r y_l y_r d_l d_r rf p D r Lx Ly Hl Hr Hp.
  assert (HD : 0 < D) by (apply Rdiv_lt_0_compat; lra).
  assert (M : forall x y, x_l <= x -> x <= y -> y <= x_r -> interpolation x x_l x_r y_l y_r d_l d_r r <= interpolation y x_l x_r y_l y_r d_l d_r r).
  { destruct (below_max_case r) as [(r0 & Er & Hr0)|Er].
    - destruct (convex_control_monotone rf d_l d_r D p r0) as (N & B & Pr); try assumption; [apply Rmult_le_pos; lra..|destruct Hp as [Hp|Hp]; [left; rewrite Rabs_right; lra|now right]|].
      rewrite Er. assert (B' : d_r + d_l <= r0 * D) by (apply (Rmult_le_compat_r D) in B; [|lra]; replace ((d_r + d_l) / D * D) with (d_r + d_l) in B by (field; lra); exact B).
      apply (mono_from_slope _ (fun x => slope_num (x_r - x_l) y_l y_r d_l d_r r0 ((x - x_l) / (x_r - x_l)) / (1 + (r0 - 3) * ((x - x_l) / (x_r - x_l)) * (1 - (x - x_l) / (x_r - x_l))) ^ 2)).
      + intros x Hx. apply interpolation_derive; [exact Lx|exact Hr0|]. apply Rgt_not_eq, den_pos; [lra|now apply unit_range].
      + intros x Hx. pose proof (unit_range x x_l x_r Lx Hx) as U. apply Rmult_le_pos; [now apply slope_num_pos|]. left. apply Rinv_0_lt_compat, pow_lt, den_pos; [lra|exact U].
    - intros x y Hx L Hy. rewrite !interpolation_linear by assumption.
      assert ((x - x_l) / (x_r - x_l) <= (y - x_l) / (x_r - x_l)) by (apply Rmult_le_compat_r; [left; apply Rinv_0_lt_compat; lra|lra]). nra. }
  intros x y Hx L Hy. destruct (cubic_nodes x_l x_r y_l y_r d_l d_r r Lx) as [E1 E2].
  pose proof (M x_l x) as A. rewrite E1 in A. pose proof (M y x_r) as B. rewrite E2 in B. split; [split|]; [apply A; lra|apply M; lra|apply B; lra].
Qed.
(** the same for decreasing data *)
Lemma interpolation_neg x x_l x_r y_l y_r d_l d_r r : interpolation x x_l x_r (- y_l) (- y_r) (- d_l) (- d_r) r = - interpolation x x_l x_r y_l y_r d_l d_r r.
Proof.
  unfold interpolation. destruct (Rleb (Rabs (x_r - x_l)) 0); [field|]. destruct (below_max r) as [r0|]; [|ring]. unfold Rdiv. ring.
Qed.
Lemma min_control_neg d_l d_r D p : minimum_rational_cubic_control_parameter (- d_l) (- d_r) (- D) p = minimum_rational_cubic_control_parameter d_l d_r D p.
Proof.
  unfold minimum_rational_cubic_control_parameter. cbv zeta. replace (- d_l * - D) with (d_l * D) by ring. replace (- d_r * - D) with (d_r * D) by ring.
  assert (L : forall a b, Rleb (- a) (- b) = Rleb b a) by (intros a b; destruct (Rleb_spec (- a) (- b)), (Rleb_spec b a); auto; lra).
  rewrite !L. replace (- d_r - - d_l) with (- (d_r - d_l)) by ring. replace (- d_r - - D) with (- (d_r - D)) by ring. replace (- D - - d_l) with (- (D - d_l)) by ring.
  assert (Z : forall a, is_zero (- a) = is_zero a) by (intros; unfold is_zero; now rewrite Rabs_Ropp). rewrite !Z.
  assert (F : forall a b, fabsdiv (- a) (- b) = fabsdiv a b).
  { intros a b. unfold fabsdiv. destruct (Reqb_spec (- b) 0) as [E|E], (Reqb_spec b 0) as [E'|E']; try lra.
    - destruct (Reqb_spec (- a) 0), (Reqb_spec a 0); auto; lra.
    - f_equal. f_equal. field. exact E'. }
  rewrite !F. replace ((- d_r + - d_l) / - D) with ((d_r + d_l) / D) by (destruct (Req_EM_T D 0) as [->|N]; [rewrite Ropp_0; unfold Rdiv; rewrite Rinv_0; ring|field; exact N]).
  rewrite (Bool.andb_comm (Rleb D d_l)), (Bool.andb_comm (Rleb d_l D)).
  set (cv := Rleb D d_r && Rleb d_l D). set (cc := Rleb d_r D && Rleb D d_l). set (mn := Rleb 0 (d_l * D) && Rleb 0 (d_r * D)).
  rewrite (Bool.orb_comm cc cv). destruct mn, cv, cc; reflexivity.
Qed.
Theorem cubic_monotone_decreasing : forall x_l x_r y_l y_r d_l d_r rf p,
  let D := (y_r - y_l) / (x_r - x_l) in let r := fmax (Fin rf) (minimum_rational_cubic_control_parameter d_l d_r D p) in
  x_l < x_r -> y_r < y_l -> d_l <= 0 -> d_r <= 0 -> (f64_min_pos <= - D \/ p = true) ->
  forall x y, x_l <= x -> x <= y -> y <= x_r ->
  y_r <= interpolation y x_l x_r y_l y_r d_l d_r r <= interpolation x x_l x_r y_l y_r d_l d_r r /\
  interpolation x x_l x_r y_l y_r d_l d_r r <= y_l.
Proof.
  intros x_l x_r y_l y_r d_l d_r rf p D r Lx Ly Hl Hr Hp x y Hx L Hy.
  pose proof (cubic_monotone x_l x_r (- y_l) (- y_r) (- d_l) (- d_r) rf p) as M. cbv zeta in M.
  assert (ED : (- y_r - - y_l) / (x_r - x_l) = - D) by (unfold D; field; lra). rewrite ED, min_control_neg in M. fold r in M.
  specialize (M Lx ltac:(lra) ltac:(lra) ltac:(lra) Hp x y Hx L Hy). rewrite !interpolation_neg in M. lra.
Qed.
Print Assumptions cubic_nodes.
Print Assumptions cubic_slopes.
Print Assumptions cubic_second_derivative.
Print Assumptions cubic_monotone.
Print Assumptions cubic_monotone_decreasing.
(** data from 0 to 1 with slopes 1 and 3 and secant 2, and its mirror image *)
Example cubic_case : 0 < 1 /\ 0 <= 1 /\ 0 <= 3 /\ f64_min_pos <= (2 - 0) / (1 - 0) /\
  f64_min_pos <= Rabs (/ 2 * (1 - 0) * 0 + (3 - 1)) /\ f64_min_pos <= Rabs ((2 - 0) / (1 - 0) - 1) /\ f64_min_pos <= Rabs (3 - (2 - 0) / (1 - 0)) /\
  rational_cubic_control_parameter_to_fit_second_derivative_at_left_side 0 1 0 2 1 3 0 < MAXIMUM_RATIONAL_CUBIC_CONTROL_PARAMETER_VALUE.
Proof.
  assert (M : 0 < f64_min_pos <= 1).
  { unfold f64_min_pos. split; [apply Rinv_0_lt_compat, pow_lt; lra|]. rewrite <- Rinv_1. apply Rinv_le_contravar; [lra|]. apply pow_R1_Rle. lra. }
  replace ((2 - 0) / (1 - 0)) with 2 by field. rewrite !Rabs_right by lra. repeat split; try lra.
  unfold rational_cubic_control_parameter_to_fit_second_derivative_at_left_side, is_zero. cbv zeta. rewrite !Rabs_right by lra.
  destruct (Rltb_spec (/ 2 * (1 - 0) * 0 + (3 - 1)) f64_min_pos); [lra|]. destruct (Rltb_spec ((2 - 0) / (1 - 0) - 1) f64_min_pos); [lra|].
  unfold MAXIMUM_RATIONAL_CUBIC_CONTROL_PARAMETER_VALUE, f64_eps. lra.
Qed.
