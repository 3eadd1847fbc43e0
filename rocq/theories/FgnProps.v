(** The fractional noise generators have the autocorrelation they are meant to have. *)
From Coq Require Import Reals Lra Lia List Arith Bool.
From Verif Require Import Res InterpModel InterpProofs StatModel RList MatLib SimModel FgnModel FgnMath.
Import ListNotations.
Open Scope R_scope.

(** ** The circulant row *)
Lemma circulant_row_eq h m :
  circulant_row h (S m) = map (acf h) (seq 0 (S (S m))) ++ rev (map (acf h) (seq 1 m)).
Proof.
  unfold circulant_row. f_equal.
  rewrite (seq_S (S m)), map_app, rev_app_distr. simpl plus. cbn [map rev app tl].
  cbn [seq map rev]. apply removelast_last.
Qed.
Lemma circulant_row_length h m : length (circulant_row h (S m)) = (2 * S m)%nat.
Proof. rewrite circulant_row_eq, app_length, rev_length, !map_length, !seq_length. lia. Qed.
Lemma circulant_row_nth h m k : (k < 2 * S m)%nat ->
  nth k (circulant_row h (S m)) 0 = acf h (if Nat.leb k (S m) then k else 2 * S m - k).
Proof.
  intros Hk. rewrite circulant_row_eq.
  destruct (Nat.leb_spec k (S m)) as [L|L].
  - rewrite app_nth1 by (rewrite map_length, seq_length; lia).
    rewrite (nth_indep _ 0 (acf h 0)) by (rewrite map_length, seq_length; lia).
    rewrite map_nth, seq_nth by lia. reflexivity.
  - rewrite app_nth2 by (rewrite map_length, seq_length; lia). rewrite map_length, seq_length.
    rewrite rev_nth by (rewrite map_length, seq_length; lia). rewrite map_length, seq_length.
    rewrite (nth_indep _ 0 (acf h 0)) by (rewrite map_length, seq_length; lia).
    rewrite map_nth, seq_nth by lia. f_equal. lia.
Qed.

Lemma cos_turn j x : cos (2 * INR j * PI - x) = cos x.
Proof. replace (2 * INR j * PI - x) with (- x + 2 * INR j * PI) by ring. rewrite cos_period. apply cos_neg. Qed.
Lemma sin_turn j x : sin (2 * INR j * PI - x) = - sin x.
Proof. replace (2 * INR j * PI - x) with (- x + 2 * INR j * PI) by ring. rewrite sin_period. apply sin_neg. Qed.

Lemma row_sum h m (f : nat -> R) :
  bs (2 * S m) (fun k => nth k (circulant_row h (S m)) 0 * f k)
  = f O + bs m (fun k => acf h (S k) * (f (S k) + f (2 * S m - S k)%nat)) + acf h (S m) * f (S m).
Proof.
  replace (2 * S m)%nat with (S (S m) + m)%nat at 1 by lia. rewrite bs_app. cbn [bs].
  rewrite (bs_ext m (fun i => nth (S (S m) + i) _ 0 * _) (fun i => acf h (m - i) * f (S (S m) + i)%nat)).
  2:{ intros i Hi. rewrite circulant_row_nth by lia. destruct (Nat.leb_spec (S (S m) + i) (S m)); [lia|]. do 2 f_equal. lia. }
  rewrite (circulant_row_nth h m (S m)) by lia. rewrite Nat.leb_refl.
  rewrite (bs_rev m (fun i => acf h (m - i) * _)).
  change (bs m (fun k => nth k (circulant_row h (S m)) 0 * f k) + nth m (circulant_row h (S m)) 0 * f m)
    with (bs (S m) (fun k => nth k (circulant_row h (S m)) 0 * f k)).
  rewrite bs_shift. rewrite (circulant_row_nth h m 0) by lia. change (if Nat.leb 0 (S m) then 0%nat else (2 * S m - 0)%nat) with O. change (acf h 0) with 1.
  rewrite (bs_ext m (fun i => nth (S i) (circulant_row h (S m)) 0 * f (S i)) (fun i => acf h (S i) * f (S i))).
  2:{ intros i Hi. rewrite circulant_row_nth by lia. destruct (Nat.leb_spec (S i) (S m)); [reflexivity|lia]. }
  rewrite (bs_ext m (fun i => acf h (m - (m - 1 - i)) * f (S (S m) + (m - 1 - i))%nat) (fun i => acf h (S i) * f (2 * S m - S i)%nat)).
  2:{ intros i Hi. f_equal; f_equal; lia. }
  rewrite (bs_ext m (fun k => acf h (S k) * (f (S k) + _)) (fun k => acf h (S k) * f (S k) + acf h (S k) * f (2 * S m - S k)%nat)) by (intros; ring).
  rewrite bs_plus. ring.
Qed.

Definition half_angle (n j : nat) : R := PI * INR j / INR n.
Lemma angle_half m j k : dft_angle (2 * S m) j k = INR k * half_angle (S m) j.
Proof. unfold dft_angle, half_angle. rewrite mult_INR. simpl (INR 2). assert (0 < INR (S m)) by (apply lt_0_INR; lia). field. lra. Qed.
Lemma angle_fold m j k : (k <= 2 * S m)%nat -> INR (2 * S m - k) * half_angle (S m) j = 2 * INR j * PI - INR k * half_angle (S m) j.
Proof.
  intros Hk. rewrite minus_INR by exact Hk. rewrite mult_INR. simpl (INR 2). unfold half_angle.
  assert (0 < INR (S m)) by (apply lt_0_INR; lia). field. lra.
Qed.
Lemma angle_mid m j : INR (S m) * half_angle (S m) j = INR j * PI.
Proof. unfold half_angle. assert (0 < INR (S m)) by (apply lt_0_INR; lia). field. lra. Qed.

Lemma sin_jPI j : sin (INR j * PI) = 0.
Proof. replace (INR j * PI) with (IZR (Z.of_nat j) * PI) by (rewrite INR_IZR_INZ; reflexivity). apply sin_eq_0_1. eexists; reflexivity. Qed.

Lemma eigen_re_eq h m j : let t := half_angle (S m) j in
  eigen_re h (S m) j = 1 + 2 * bs m (fun k => acf h (S k) * cos (INR (S k) * t)) + acf h (S m) * cos (INR (S m) * t).
Proof.
  intros t. unfold eigen_re, dft_re. rewrite circulant_row_length.
  rewrite (bs_ext _ _ (fun k => nth k (circulant_row h (S m)) 0 * cos (INR k * t))) by (intros; rewrite angle_half; fold t; ring).
  rewrite row_sum. change (INR 0) with 0. rewrite Rmult_0_l, cos_0. f_equal. f_equal.
  rewrite <- bs_scal. apply bs_ext. intros k Hk. unfold t. rewrite angle_fold by lia. rewrite cos_turn. ring.
Qed.
Lemma eigen_im_eq h m j : eigen_im h (S m) j = 0.
Proof.
  unfold eigen_im, dft_im. rewrite circulant_row_length. set (t := half_angle (S m) j).
  rewrite (bs_ext _ _ (fun k => nth k (circulant_row h (S m)) 0 * - sin (INR k * t))) by (intros; rewrite angle_half; fold t; ring).
  rewrite row_sum. rewrite (bs_ext m _ (fun _ => 0)).
  2:{ intros k Hk. unfold t. rewrite angle_fold by lia. rewrite sin_turn. ring. }
  rewrite bs_zero. unfold t at 2. rewrite angle_mid, sin_jPI. change (INR 0) with 0. rewrite Rmult_0_l, sin_0. ring.
Qed.

(** ** Positive eigenvalues *)
Lemma half_sin m j : (0 < j < 2 * S m)%nat -> 0 < sin (half_angle (S m) j / 2).
Proof.
  intros Hj. assert (P : 0 < INR (S m)) by (apply lt_0_INR; lia).
  assert (J0 : 0 < INR j) by (apply lt_0_INR; lia).
  assert (J1 : INR j < 2 * INR (S m)) by (replace (2 * INR (S m)) with (INR (2 * S m)) by (rewrite mult_INR; simpl (INR 2); ring); apply lt_INR; lia).
  pose proof PI_RGT_0. replace (half_angle (S m) j / 2) with (PI * (INR j / (2 * INR (S m)))) by (unfold half_angle; field; lra).
  assert (Q : 0 < INR j / (2 * INR (S m)) < 1).
  { split; [apply Rdiv_lt_0_compat; lra|]. apply Rmult_lt_reg_r with (2 * INR (S m)); [lra|]. unfold Rdiv. rewrite Rmult_assoc, Rinv_l by lra. lra. }
  apply sin_gt_0; nra.
Qed.

Lemma eigen_rough h m j : 0 <= h <= 1 / 2 -> 0 < eigen_re h (S m) j.
Proof.
  intros Hh. rewrite eigen_re_eq. cbv zeta. set (t := half_angle (S m) j).
  pose proof (acf_row_sum h (S m) ltac:(lia) ltac:(lra)) as P. replace (S m - 1)%nat with m in P by lia.
  assert (bs m (fun k => acf h (S k)) <= bs m (fun k => acf h (S k) * cos (INR (S k) * t))).
  { apply bs_le. intros k Hk. pose proof (acf_neg h k Hh). pose proof (COS_bound (INR (S k) * t)). nra. }
  assert (acf h (S m) <= acf h (S m) * cos (INR (S m) * t)).
  { pose proof (acf_neg h m Hh). pose proof (COS_bound (INR (S m) * t)). nra. }
  lra.
Qed.
Lemma eigen_at_zero h m : 0 <= h -> 0 < eigen_re h (S m) 0.
Proof.
  intros Hh. rewrite eigen_re_eq. cbv zeta. unfold half_angle. change (INR 0) with 0. rewrite Rmult_0_r. unfold Rdiv. rewrite Rmult_0_l, !Rmult_0_r, cos_0.
  pose proof (acf_row_sum h (S m) ltac:(lia) Hh) as P. replace (S m - 1)%nat with m in P by lia.
  rewrite (bs_ext m _ (fun k => acf h (S k))) by (intros; rewrite Rmult_0_r, cos_0; ring). lra.
Qed.
Lemma eigen_fejer h m j : (0 < j < 2 * S m)%nat -> let t := half_angle (S m) j in
  eigen_re h (S m) j = bs m (fun k => (acf_d h k - acf_d h (S k)) * fejer t (S k)) + acf_d h m * fejer t (S m).
Proof.
  intros Hj t. rewrite eigen_re_eq. fold t. cbv zeta.
  change 1 with (acf h 0) at 1. rewrite (parts1 (acf h) (fun k => cos (INR k * t)) (dirichlet t)) by reflexivity.
  assert (E : dirichlet t m + cos (INR (S m) * t) = 0).
  { pose proof (half_sin m j Hj) as P. fold t in P. apply Rmult_eq_reg_r with (sin (t / 2)); [|lra].
    rewrite Rmult_plus_distr_r, dirichlet_sin. replace (INR m * t + t / 2) with (INR (S m) * t - t / 2) by (rewrite S_INR; field).
    rewrite sin_minus. unfold t at 1. rewrite angle_mid, sin_jPI. ring. }
  replace (cos (INR (S m) * t)) with (- dirichlet t m) by lra.
  unfold fejer. rewrite <- parts2. cbn [bs]. unfold acf_d. ring.
Qed.
Lemma eigen_smooth h m j : 1 / 2 <= h <= 1 -> (0 < j < 2 * S m)%nat -> 0 <= eigen_re h (S m) j.
Proof.
  intros Hh Hj. rewrite eigen_fejer by exact Hj. cbv zeta. pose proof (half_sin m j Hj).
  assert (F : forall k, 0 <= fejer (half_angle (S m) j) k) by (intros; apply fejer_nonneg; lra).
  apply Rplus_le_le_0_compat.
  - apply bs_nonneg. intros k _. apply Rmult_le_pos; [apply acf_d_convex, Hh|apply F].
  - apply Rmult_le_pos; [apply acf_d_nonneg, Hh|apply F].
Qed.
Lemma fejer_1 t : fejer t 1 = 1.
Proof. unfold fejer, dirichlet. simpl. ring. Qed.
Lemma eigen_smooth_strict h m j : 1 / 2 <= h < 1 -> (0 < j < 2 * S m)%nat -> 0 < eigen_re h (S m) j.
Proof.
  intros Hh Hj. rewrite eigen_fejer by exact Hj. cbv zeta. pose proof (half_sin m j Hj).
  assert (F : forall k, 0 <= fejer (half_angle (S m) j) k) by (intros; apply fejer_nonneg; lra).
  destruct m as [|m].
  - simpl bs. rewrite fejer_1. pose proof (acf_d_0 h Hh). lra.
  - rewrite bs_shift, fejer_1. pose proof (acf_d_strict h Hh).
    assert (0 <= bs m (fun i => (acf_d h (S i) - acf_d h (S (S i))) * fejer (half_angle (S (S m)) j) (S (S i)))).
    { apply bs_nonneg. intros k _. apply Rmult_le_pos; [apply acf_d_convex; lra|apply F]. }
    assert (0 <= acf_d h (S m) * fejer (half_angle (S (S m)) j) (S (S m))) by (apply Rmult_le_pos; [apply acf_d_nonneg; lra|apply F]).
    lra.
Qed.
Lemma eigen_pos h m j : 0 <= h < 1 -> (j < 2 * S m)%nat -> 0 < eigen_re h (S m) j.
Proof.
  intros Hh Hj. destruct (Rle_dec h (1 / 2)) as [L|L]; [apply eigen_rough; lra|].
  destruct j as [|j]; [apply eigen_at_zero; lra|apply eigen_smooth_strict; [lra|lia]].
Qed.
Lemma eigen_nonneg h m j : 0 <= h <= 1 -> (j < 2 * S m)%nat -> 0 <= eigen_re h (S m) j.
Proof.
  intros Hh Hj. destruct (Req_dec h 1) as [->|N]; [|left; apply eigen_pos; [lra|exact Hj]].
  destruct j as [|j]; [left; apply eigen_at_zero; lra|apply eigen_smooth; [lra|lia]].
Qed.

(** ** Orthogonality *)
Lemma cos_sum (t : R) (N : nat) : sin (t / 2) <> 0 -> sin (INR N * t - t / 2) = - sin (t / 2) -> bs N (fun k => cos (INR k * t)) = 0.
Proof.
  intros H0 H1.
  assert (T : 2 * sin (t / 2) * bs N (fun k => cos (INR k * t)) = sin (INR N * t - t / 2) + sin (t / 2)).
  { clear H1. induction N as [|N IH].
    - simpl. replace (0 * t - t / 2) with (- (t / 2)) by field. rewrite sin_neg. ring.
    - cbn [bs]. rewrite Rmult_plus_distr_l, IH. replace (INR (S N) * t - t / 2) with (INR N * t + t / 2) by (rewrite S_INR; field).
      rewrite sin_minus, sin_plus. ring. }
  rewrite H1 in T.
  assert (E : 2 * sin (t / 2) * bs N (fun k => cos (INR k * t)) = 0) by lra.
  apply Rmult_integral in E as [E|E]; [lra|exact E].
Qed.
(** [x] is an integer that is not a multiple of [N] *)
Lemma cos_sum_int N (x : Z) : (0 < N)%nat -> (0 < x < 2 * Z.of_nat N)%Z \/ (- Z.of_nat N < x < 0)%Z -> x <> Z.of_nat N ->
  bs N (fun k => cos (INR k * (2 * PI * IZR x / INR N))) = 0.
Proof.
  intros HN Hx Hne. assert (P : 0 < INR N) by (apply lt_0_INR, HN). pose proof PI_RGT_0 as PP.
  set (t := 2 * PI * IZR x / INR N).
  assert (Et : t / 2 = PI * (IZR x / INR N)) by (unfold t; field; lra).
  apply cos_sum.
  - rewrite Et. assert (I : INR N = IZR (Z.of_nat N)) by apply INR_IZR_INZ.
    assert (B : forall a b c : Z, (a * Z.of_nat N < x)%Z -> (x < b * Z.of_nat N)%Z -> IZR a < IZR x / INR N < IZR b).
    { intros a b _ Ha Hb. apply IZR_lt in Ha, Hb. rewrite mult_IZR, <- I in Ha, Hb.
      split; apply Rmult_lt_reg_r with (INR N); try lra; unfold Rdiv; rewrite Rmult_assoc, Rinv_l by lra; lra. }
    destruct Hx as [Hx|Hx]; [destruct (Z_lt_le_dec x (Z.of_nat N)) as [L|L]|].
    + destruct (B 0%Z 1%Z 0%Z ltac:(lia) ltac:(lia)). apply Rgt_not_eq, sin_gt_0; nra.
    + destruct (B 1%Z 2%Z 0%Z ltac:(lia) ltac:(lia)). apply Rlt_not_eq, sin_lt_0; nra.
    + destruct (B (-1)%Z 0%Z 0%Z ltac:(lia) ltac:(lia)). apply Rlt_not_eq. apply sin_lt_0_var; nra.
  - replace (INR N * t - t / 2) with (- (t / 2) + 2 * IZR x * PI) by (unfold t; field; lra).
    destruct (Z_le_gt_dec 0 x) as [L|L].
    + replace (IZR x) with (INR (Z.to_nat x)) by (rewrite INR_IZR_INZ, Z2Nat.id by exact L; reflexivity). rewrite sin_period. apply sin_neg.
    + rewrite <- (sin_period _ (Z.to_nat (- x))). rewrite INR_IZR_INZ, Z2Nat.id by lia. rewrite opp_IZR.
      replace (- (t / 2) + 2 * IZR x * PI + 2 * - IZR x * PI) with (- (t / 2)) by ring. apply sin_neg.
Qed.

(** the projection of the row on the [d]-th frequency *)
Lemma cos_prod a b : cos a * cos b = / 2 * (cos (a - b) + cos (a + b)).
Proof. rewrite cos_minus, cos_plus. field. Qed.
Lemma ortho N m d : (0 < N)%nat -> (m < N)%nat -> (2 * d < N)%nat ->
  bs N (fun k => cos (dft_angle N m k) * cos (dft_angle N d k))
  = INR N / 2 * ((if Nat.eqb m d then 1 else 0) + (if Nat.eqb ((m + d) mod N) 0 then 1 else 0)).
Proof.
  intros HN Hm Hd. assert (P : 0 < INR N) by (apply lt_0_INR, HN).
  rewrite (bs_ext _ _ (fun k => / 2 * (cos (INR k * (2 * PI * IZR (Z.of_nat m - Z.of_nat d) / INR N)) + cos (INR k * (2 * PI * IZR (Z.of_nat m + Z.of_nat d) / INR N))))).
  2:{ intros k _. rewrite cos_prod. unfold dft_angle. rewrite minus_IZR, plus_IZR, <- !INR_IZR_INZ. f_equal. f_equal; f_equal; field; lra. }
  rewrite bs_scal, bs_plus.
  match goal with |- _ = INR N / 2 * (?X + ?Y) => replace (INR N / 2 * (X + Y)) with (/ 2 * (INR N * X + INR N * Y)) by field end.
  f_equal. f_equal.
  - destruct (Nat.eqb_spec m d) as [->|Ne].
    + rewrite Z.sub_diag. rewrite (bs_ext _ _ (fun _ => 1)); [rewrite bs_const; ring|].
      intros k _. replace (INR k * (2 * PI * 0 / INR N)) with 0 by (field; lra). apply cos_0.
    + rewrite cos_sum_int by lia. ring.
  - destruct (Nat.eqb_spec ((m + d) mod N) 0) as [E|Ne].
    + rewrite (bs_ext _ _ (fun _ => 1)); [rewrite bs_const; ring|]. intros k _.
      apply Nat.mod_divides in E as [c E]; [|lia]. assert (c = 0 \/ c = 1)%nat as [->| ->] by nia.
      * replace (Z.of_nat m + Z.of_nat d)%Z with 0%Z by lia. replace (INR k * (2 * PI * 0 / INR N)) with 0 by (field; lra). apply cos_0.
      * replace (Z.of_nat m + Z.of_nat d)%Z with (Z.of_nat N) by lia. rewrite <- INR_IZR_INZ.
        replace (INR k * (2 * PI * INR N / INR N)) with (0 + 2 * INR k * PI) by (field; lra). rewrite cos_period. apply cos_0.
    + rewrite cos_sum_int.
      * ring.
      * exact HN.
      * left. split; [|lia]. assert (m + d <> 0)%nat by (intros Z0; rewrite Z0, Nat.mod_0_l in Ne; lia). lia.
      * intros E. apply Ne. replace (m + d)%nat with N by lia. apply Nat.mod_same. lia.
Qed.

Lemma inverse_transform h m d : (d <= m)%nat ->
  bs (2 * S m) (fun k => eigen_re h (S m) k * cos (dft_angle (2 * S m) d k)) = INR (2 * S m) * acf h d.
Proof.
  intros Hd. set (N := (2 * S m)%nat). assert (HN : (0 < N)%nat) by (unfold N; lia).
  set (row := circulant_row h (S m)).
  rewrite (bs_ext _ _ (fun k => bs N (fun l => nth l row 0 * (cos (dft_angle N l k) * cos (dft_angle N d k))))).
  2:{ intros k _. unfold eigen_re. fold row. unfold row at 1. rewrite circulant_row_length. fold N. unfold dft_re. rewrite <- bs_scal_r. apply bs_ext.
      intros l _. replace (dft_angle N k l) with (dft_angle N l k) by (unfold dft_angle; field; assert (0 < INR N) by (apply lt_0_INR, HN); lra). ring. }
  rewrite bs_swap.
  rewrite (bs_ext _ _ (fun l => INR N / 2 * ((if Nat.eqb l d then nth l row 0 else 0) + (if Nat.eqb ((l + d) mod N) 0 then nth l row 0 else 0)))).
  2:{ intros l Hl. rewrite bs_scal, ortho by (unfold N in *; lia). destruct (Nat.eqb l d), (Nat.eqb ((l + d) mod N) 0); ring. }
  rewrite bs_scal, bs_plus, bs_delta by (unfold N; lia).
  set (d' := if Nat.eqb d 0 then 0%nat else (N - d)%nat).
  rewrite (bs_ext _ (fun l => if Nat.eqb ((l + d) mod N) 0 then _ else _) (fun l => if Nat.eqb l d' then nth l row 0 else 0)).
  2:{ intros l Hl. replace (Nat.eqb ((l + d) mod N) 0) with (Nat.eqb l d'); [reflexivity|].
      apply eq_true_iff_eq. rewrite !Nat.eqb_eq. unfold d'. destruct (Nat.eqb_spec d 0) as [->|Nd].
      - rewrite Nat.add_0_r, Nat.mod_small by exact Hl. tauto.
      - split; [intros ->; replace (N - d + d)%nat with N by (unfold N in *; lia); apply Nat.mod_same; lia|].
        intros E. apply Nat.mod_divides in E as [c E]; [|lia]. assert (c = 1)%nat by (unfold N in *; nia). subst c. lia. }
  rewrite bs_delta by (unfold d', N; destruct (Nat.eqb_spec d 0); lia).
  unfold row. rewrite !circulant_row_nth by (unfold d', N; destruct (Nat.eqb_spec d 0); lia).
  destruct (Nat.leb_spec d (S m)); [|lia].
  replace (if Nat.leb d' (S m) then d' else (2 * S m - d')%nat) with d.
  2:{ unfold d', N. destruct (Nat.eqb_spec d 0) as [->|Nd]; [reflexivity|]. destruct (Nat.leb_spec (2 * S m - d) (S m)); lia. }
  field.
Qed.

(** ** Covariance of the increments of fractional Brownian motion *)
(** |x|^(2h), zero at zero *)
Definition apow (h x : R) : R := if Req_EM_T x 0 then 0 else Rpower (Rabs x) (2 * h).
(** the covariance of fractional Brownian motion at the times [s] and [t] *)
Definition fbm_cov (h s t : R) : R := / 2 * (apow h s + apow h t - apow h (s - t)).

Lemma apow_pw h x : apow h x = pw (2 * h) (Rabs x).
Proof.
  unfold apow, pw. destruct (Req_EM_T x 0) as [->|N].
  - rewrite Rabs_R0. destruct (Rlt_dec 0 0); [lra|reflexivity].
  - pose proof (Rabs_pos_lt x N). destruct (Rlt_dec 0 (Rabs x)); [reflexivity|lra].
Qed.
Lemma apow_sym h x : apow h (- x) = apow h x.
Proof. rewrite !apow_pw, Rabs_Ropp. reflexivity. Qed.
Lemma apow_1 h : apow h 1 = 1.
Proof. unfold apow. destruct (Req_EM_T 1 0); [lra|]. rewrite Rabs_R1. unfold Rpower. rewrite ln_1, Rmult_0_r. apply exp_0. Qed.
Lemma apow_0 h : apow h 0 = 0.
Proof. unfold apow. destruct (Req_EM_T 0 0); [reflexivity|lra]. Qed.
Lemma acf_apow h k : 0 < h -> acf h k = / 2 * (apow h (INR k + 1) - 2 * apow h (INR k) + apow h (INR k - 1)).
Proof.
  intros Hh. destruct k as [|k].
  - simpl. rewrite Rplus_0_l. replace (0 - 1) with (- (1)) by ring. rewrite apow_sym, apow_1, apow_0. field.
  - rewrite acf_rr by exact Hh. unfold rr, sd. rewrite S_INR. pose proof (pos_INR k). rewrite !apow_pw, !Rabs_pos_eq by lra. field.
Qed.
Lemma acf_entry_apow h i j : 0 < h -> let d := INR i - INR j in
  acf_entry h i j = / 2 * (apow h (d + 1) - 2 * apow h d + apow h (d - 1)).
Proof.
  intros Hh d. unfold acf_entry. destruct (Nat.leb_spec j i).
  - rewrite acf_apow, minus_INR by assumption. reflexivity.
  - rewrite acf_apow, minus_INR by (assumption || lia). unfold d.
    replace (INR j - INR i + 1) with (- (INR i - INR j - 1)) by ring. replace (INR j - INR i - 1) with (- (INR i - INR j + 1)) by ring.
    replace (INR j - INR i) with (- (INR i - INR j)) by ring. rewrite !apow_sym. ring.
Qed.
Lemma acf_row_to h p q : 0 < h -> bs q (fun j => acf_entry h p j)
  = / 2 * (apow h (INR p + 1) - apow h (INR p) - apow h (INR p + 1 - INR q) + apow h (INR p - INR q)).
Proof.
  intros Hh. induction q as [|q IH].
  - simpl. rewrite !Rminus_0_r. field.
  - cbn [bs]. rewrite IH, acf_entry_apow by exact Hh. rewrite S_INR.
    replace (INR p + 1 - (INR q + 1)) with (INR p - INR q) by ring. replace (INR p - (INR q + 1)) with (INR p - INR q - 1) by ring.
    replace (INR p + 1 - INR q) with (INR p - INR q + 1) by ring. field.
Qed.
Lemma acf_block h p q : 0 < h -> bs p (fun i => bs q (fun j => acf_entry h i j)) = fbm_cov h (INR p) (INR q).
Proof.
  intros Hh. unfold fbm_cov. induction p as [|p IH].
  - simpl. replace (0 - INR q) with (- INR q) by ring. rewrite apow_sym, apow_0. field.
  - cbn [bs]. rewrite IH, acf_row_to by exact Hh. rewrite S_INR. field.
Qed.
Lemma apow_scale h c x : 0 < c -> apow h (c * x) = Rpower c (2 * h) * apow h x.
Proof.
  intros Hc. unfold apow. destruct (Req_EM_T (c * x) 0) as [E|N]; destruct (Req_EM_T x 0) as [E'|N'].
  - ring.
  - apply Rmult_integral in E as [E|E]; lra.
  - subst. rewrite Rmult_0_r in N. lra.
  - rewrite Rabs_mult, (Rabs_pos_eq c) by lra. symmetry. apply Rpower_mult_distr; [exact Hc|apply Rabs_pos_lt, N'].
Qed.
Lemma fbm_cov_scale h c s t : 0 < c -> fbm_cov h (c * s) (c * t) = Rpower c (2 * h) * fbm_cov h s t.
Proof. intros Hc. unfold fbm_cov. rewrite <- Rmult_minus_distr_l, !apow_scale by exact Hc. ring. Qed.

(** ** The Fourier method *)
Lemma angle_diff N i j k : (0 < N)%nat -> (j <= i)%nat -> dft_angle N i k - dft_angle N j k = dft_angle N (i - j) k.
Proof. intros HN H. unfold dft_angle. rewrite minus_INR by exact H. assert (0 < INR N) by (apply lt_0_INR, HN). field. lra. Qed.
Lemma spectral h m i j : (i <= S m)%nat -> (j <= S m)%nat -> (i - j <= m)%nat -> (j - i <= m)%nat ->
  bs (2 * S m) (fun k => eigen_re h (S m) k * (cos (dft_angle (2 * S m) i k) * cos (dft_angle (2 * S m) j k) + sin (dft_angle (2 * S m) i k) * sin (dft_angle (2 * S m) j k)))
  = INR (2 * S m) * acf_entry h i j.
Proof.
  intros Hi Hj H1 H2. unfold acf_entry.
  rewrite (bs_ext _ _ (fun k => eigen_re h (S m) k * cos (dft_angle (2 * S m) (if Nat.leb j i then i - j else j - i) k))).
  - apply inverse_transform. destruct (Nat.leb_spec j i); lia.
  - intros k _. rewrite <- cos_minus. destruct (Nat.leb_spec j i).
    + rewrite angle_diff by lia. reflexivity.
    + rewrite <- cos_neg. rewrite Ropp_minus_distr, angle_diff by lia. reflexivity.
Qed.

Definition fft_scale (h : R) (n : nat) (t : R) : R := Rpower (INR n) (- h) * Rpower t h.
Definition fft_amp (h : R) (n k : nat) : R := sqrt (eigen_re h n k / (2 * INR n)).
Lemma fgn_fft_linear h m t u v : 0 <= h <= 1 ->
  fgn_fft h (S m) t u v = Ret (map (fun i => Some (bs (2 * S m) (fun k =>
     fft_scale h (S m) t * fft_amp h (S m) k * cos (dft_angle (2 * S m) (S i) k) * u k
     + fft_scale h (S m) t * fft_amp h (S m) k * sin (dft_angle (2 * S m) (S i) k) * v k))) (seq 0 (S m))).
Proof.
  intros Hh. unfold fgn_fft.
  destruct (Rleb_spec 0 h); [|lra]. destruct (Rleb_spec h 1); [|lra]. cbn [andb negb Nat.eqb].
  assert (P : 0 < INR (S m)) by (apply lt_0_INR; lia).
  replace (forallb _ _) with true.
  2:{ symmetry. apply forallb_forall. intros j Hj. apply in_seq in Hj. rewrite circulant_row_length in Hj.
      match goal with |- Rleb 0 ?x = true => destruct (Rleb_spec 0 x) as [_|C]; [reflexivity|] end.
      exfalso. apply C. unfold Rdiv. apply Rmult_le_pos; [apply eigen_nonneg; [exact Hh|lia]|left; apply Rinv_0_lt_compat; lra]. }
  f_equal. rewrite <- (seq_shift (S m) 0), map_map. apply map_ext. intros i. f_equal.
  rewrite Rmult_assoc. fold (fft_scale h (S m) t). unfold dft_re. rewrite <- bs_scal_r.
  apply bs_ext. intros k _. rewrite eigen_im_eq. unfold fft_amp. ring.
Qed.

(** a generator of [n] values is linear in [K] independent standard normal draws, and
    the covariance of its values is [c] *)
Definition has_covariance (n K : nat) (out : (nat -> R) -> list R) (c : nat -> nat -> R) : Prop :=
  exists load : nat -> nat -> R,
    (forall z, out z = map (fun i => bs K (fun k => load i k * z k)) (seq 0 n)) /\
    (forall i j, (i < n)%nat -> (j < n)%nat -> bs K (fun k => load i k * load j k) = c i j).

Lemma fft_amp_sq h m k : 0 <= h <= 1 -> (k < 2 * S m)%nat -> fft_amp h (S m) k * fft_amp h (S m) k = eigen_re h (S m) k / INR (2 * S m).
Proof.
  intros Hh Hk. assert (P : 0 < INR (S m)) by (apply lt_0_INR; lia). unfold fft_amp. rewrite sqrt_sqrt.
  - rewrite mult_INR. simpl (INR 2). reflexivity.
  - unfold Rdiv. apply Rmult_le_pos; [apply eigen_nonneg; [exact Hh|lia]|left; apply Rinv_0_lt_compat; lra].
Qed.
Lemma fft_scale_sq h m t : 0 < t -> fft_scale h (S m) t * fft_scale h (S m) t = Rpower (t / INR (S m)) (2 * h).
Proof.
  intros Ht. assert (P : 0 < INR (S m)) by (apply lt_0_INR; lia). unfold fft_scale.
  unfold Rdiv. rewrite <- (Rpower_mult_distr t (/ INR (S m))) by (try apply Rinv_0_lt_compat; lra).
  replace (Rpower (/ INR (S m)) (2 * h)) with (Rpower (INR (S m)) (- h + - h)).
  2:{ unfold Rpower. rewrite ln_Rinv by exact P. f_equal. ring. }
  replace (2 * h) with (h + h) by ring. rewrite !Rpower_plus. ring.
Qed.

(** the even entries of [z] are the real parts and the odd ones the imaginary parts *)
Lemma bs_double n f : bs (2 * n) f = bs n (fun k => f (2 * k)%nat + f (2 * k + 1)%nat).
Proof.
  induction n as [|n IH]; [reflexivity|]. replace (2 * S n)%nat with (S (S (2 * n))) by lia. cbn [bs]. rewrite IH.
  replace (2 * n + 1)%nat with (S (2 * n)) by lia. ring.
Qed.
Lemma odd_even k : Nat.even (2 * k) = true /\ Nat.even (2 * k + 1) = false.
Proof. rewrite Nat.even_add, Nat.even_mul. auto. Qed.
Theorem fgn_fft_covariance : forall h n t, 0 <= h <= 1 -> (0 < n)%nat -> 0 < t ->
  exists out, (forall z, fgn_fft h n t (fun k => z (2 * k)%nat) (fun k => z (2 * k + 1)%nat) = Ret (map Some (out z))) /\
    has_covariance n (2 * (2 * n)) out (fun i j => Rpower (t / INR n) (2 * h) * acf_entry h i j).
Proof.
  intros h n t Hh Hn Ht. destruct n as [|m]; [lia|].
  set (A i k := fft_scale h (S m) t * fft_amp h (S m) k * cos (dft_angle (2 * S m) (S i) k)).
  set (B i k := fft_scale h (S m) t * fft_amp h (S m) k * sin (dft_angle (2 * S m) (S i) k)).
  set (load := fun i l => if Nat.even l then A i (Nat.div2 l) else B i (Nat.div2 l)).
  assert (LE : forall i k, load i (2 * k)%nat = A i k) by (intros; unfold load; rewrite (proj1 (odd_even k)), Nat.div2_double; reflexivity).
  assert (LO : forall i k, load i (2 * k + 1)%nat = B i k) by (intros; unfold load; rewrite (proj2 (odd_even k)), Nat.add_1_r, Nat.div2_succ_double; reflexivity).
  exists (fun z => map (fun i => bs (2 * (2 * S m)) (fun k => load i k * z k)) (seq 0 (S m))). split.
  - intros z. rewrite fgn_fft_linear by exact Hh. rewrite map_map. f_equal. apply map_ext. intros i. f_equal.
    rewrite (bs_double (2 * S m)). apply bs_ext. intros k _. rewrite LE, LO. reflexivity.
  - exists load. split; [reflexivity|]. intros i j Hi Hj.
    rewrite (bs_double (2 * S m)).
    rewrite (bs_ext _ _ (fun k => fft_scale h (S m) t * fft_scale h (S m) t / INR (2 * S m) *
       (eigen_re h (S m) k * (cos (dft_angle (2 * S m) (S i) k) * cos (dft_angle (2 * S m) (S j) k) + sin (dft_angle (2 * S m) (S i) k) * sin (dft_angle (2 * S m) (S j) k))))).
    2:{ intros k Hk. rewrite !LE, !LO. unfold A, B.
        transitivity (fft_scale h (S m) t * fft_scale h (S m) t * (fft_amp h (S m) k * fft_amp h (S m) k) *
          (cos (dft_angle (2 * S m) (S i) k) * cos (dft_angle (2 * S m) (S j) k) + sin (dft_angle (2 * S m) (S i) k) * sin (dft_angle (2 * S m) (S j) k))); [ring|].
        rewrite fft_amp_sq by assumption. field. apply not_0_INR. lia. }
    rewrite bs_scal, spectral, fft_scale_sq by (lia || exact Ht).
    replace (acf_entry h (S i) (S j)) with (acf_entry h i j) by reflexivity. field. apply not_0_INR. lia.
Qed.
Print Assumptions fgn_fft_covariance.

Theorem fgn_fft_rejects : forall h n t u v, (h < 0 \/ 1 < h \/ n = O) -> fgn_fft h n t u v = Panic.
Proof.
  intros h n t u v H. unfold fgn_fft. destruct (Rleb_spec 0 h), (Rleb_spec h 1); cbn [andb negb]; try reflexivity.
  destruct H as [H|[H|H]]; [lra|lra|]. subst n. reflexivity.
Qed.
Print Assumptions fgn_fft_rejects.

(** ** Positive definiteness *)
Definition positive_definite (n : nat) (M : mat) : Prop :=
  forall x : nat -> R, (exists i, (i < n)%nat /\ x i <> 0) -> 0 < bs n (fun i => bs n (fun j => x i * x j * M i j)).

Lemma gram n K (x : nat -> R) (f : nat -> nat -> R) (w : nat -> R) :
  bs n (fun i => bs n (fun j => x i * x j * bs K (fun k => w k * (f i k * f j k))))
  = bs K (fun k => w k * (bs n (fun i => x i * f i k) * bs n (fun i => x i * f i k))).
Proof.
  rewrite (bs_ext n _ (fun i => bs K (fun k => w k * (x i * f i k) * bs n (fun j => x j * f j k)))).
  - rewrite bs_swap. apply bs_ext. intros k _. rewrite bs_scal_r, bs_scal. ring.
  - intros i _. rewrite (bs_ext n _ (fun j => bs K (fun k => w k * (x i * f i k) * (x j * f j k)))).
    + rewrite bs_swap. apply bs_ext. intros k _. rewrite bs_scal. reflexivity.
    + intros j _. rewrite <- bs_scal. apply bs_ext. intros k _. ring.
Qed.
Lemma unit_spectral m i j : (i <= m)%nat -> (j <= m)%nat ->
  bs (2 * S m) (fun k => 1 * (cos (dft_angle (2 * S m) i k) * cos (dft_angle (2 * S m) j k)))
  + bs (2 * S m) (fun k => 1 * (sin (dft_angle (2 * S m) i k) * sin (dft_angle (2 * S m) j k))) = INR (2 * S m) * eye i j.
Proof.
  intros Hi Hj. rewrite <- bs_plus. unfold eye.
  assert (P : 0 < INR (2 * S m)) by (apply lt_0_INR; lia).
  destruct (Nat.eqb_spec i j) as [->|N].
  - rewrite (bs_ext _ _ (fun _ => 1)); [rewrite bs_const; ring|]. intros k _.
    pose proof (sin2_cos2 (dft_angle (2 * S m) j k)) as E. unfold Rsqr in E. lra.
  - rewrite (bs_ext _ _ (fun k => cos (INR k * (2 * PI * IZR (Z.of_nat i - Z.of_nat j) / INR (2 * S m))))).
    + rewrite cos_sum_int by lia. ring.
    + intros k _. rewrite !Rmult_1_l, <- cos_minus. f_equal. unfold dft_angle. rewrite minus_IZR, <- !INR_IZR_INZ. field. lra.
Qed.

Theorem acf_positive_definite : forall h n, 0 <= h < 1 -> positive_definite n (acf_entry h).
Proof.
  intros h n Hh x (i0 & Hi0 & Hx). destruct n as [|m]; [lia|].
  set (N := (2 * S m)%nat). assert (P : 0 < INR N) by (apply lt_0_INR; unfold N; lia).
  set (c i k := cos (dft_angle N i k)). set (s i k := sin (dft_angle N i k)).
  set (C k := bs (S m) (fun i => x i * c i k)). set (D k := bs (S m) (fun i => x i * s i k)).
  assert (E : INR N * bs (S m) (fun i => bs (S m) (fun j => x i * x j * acf_entry h i j)) = bs N (fun k => eigen_re h (S m) k * (C k * C k + D k * D k))).
  { rewrite (bs_ext N _ (fun k => eigen_re h (S m) k * (C k * C k) + eigen_re h (S m) k * (D k * D k))) by (intros; ring).
    rewrite bs_plus. unfold C, D. rewrite <- !gram, <- bs_plus, <- bs_scal. apply bs_ext. intros i Hi.
    rewrite <- bs_plus, <- bs_scal. apply bs_ext. intros j Hj.
    replace (INR N * (x i * x j * acf_entry h i j)) with (x i * x j * (INR N * acf_entry h i j)) by ring.
    unfold N. rewrite <- spectral by lia. fold N. rewrite <- Rmult_plus_distr_l, <- bs_plus. f_equal. apply bs_ext. intros k _. unfold c, s. ring. }
  assert (F : INR N * bs (S m) (fun i => x i * x i) = bs N (fun k => C k * C k + D k * D k)).
  { rewrite (bs_ext N _ (fun k => 1 * (C k * C k) + 1 * (D k * D k))) by (intros; ring).
    rewrite bs_plus. unfold C, D. rewrite <- !(gram (S m) N x _ (fun _ => 1)), <- bs_plus, <- bs_scal. apply bs_ext. intros i Hi.
    rewrite <- bs_plus.
    rewrite (bs_ext _ _ (fun j => if Nat.eqb j i then INR N * (x i * x j) else 0)).
    - rewrite bs_delta by exact Hi. reflexivity.
    - intros j Hj. rewrite <- Rmult_plus_distr_l. unfold c, s, N. rewrite unit_spectral by lia. unfold eye. rewrite Nat.eqb_sym. destruct (Nat.eqb j i); ring. }
  assert (G : forall k, 0 <= C k * C k + D k * D k) by (intros; nra).
  assert (H0 : forall k, (k < N)%nat -> 0 <= eigen_re h (S m) k * (C k * C k + D k * D k))
    by (intros; apply Rmult_le_pos; [apply eigen_nonneg; [lra|assumption]|apply G]).
  destruct (Rle_lt_dec (bs (S m) (fun i => bs (S m) (fun j => x i * x j * acf_entry h i j))) 0) as [L|L]; [|exact L].
  exfalso. assert (Z : bs N (fun k => eigen_re h (S m) k * (C k * C k + D k * D k)) = 0).
  { pose proof (bs_nonneg N _ H0). apply Rle_antisym; [|assumption]. rewrite <- E. nra. }
  assert (Z1 : forall k, (k < N)%nat -> C k * C k + D k * D k = 0).
  { intros k Hk. pose proof (bs_zero_inv N _ H0 Z k Hk) as Y. cbv beta in Y. pose proof (eigen_pos h m k Hh Hk).
    apply Rmult_integral in Y as [Y|Y]; [lra|exact Y]. }
  rewrite (bs_ext N _ (fun _ => 0)) in F by exact Z1. rewrite bs_zero in F.
  apply Rmult_integral in F as [F|F]; [lra|].
  pose proof (bs_zero_inv (S m) (fun i => x i * x i) (fun i _ => Rle_0_sqr (x i)) F i0 Hi0) as Y. cbv beta in Y. nra.
Qed.
Print Assumptions acf_positive_definite.

(** ** Cholesky *)
Definition sym (M : mat) : mat := fun i j => if Nat.leb j i then M i j else M j i.
Lemma back_substitution (L : mat) j : (forall i k, (i < k)%nat -> L i k = 0) -> (forall k, (k < j)%nat -> L k k <> 0) ->
  forall b : nat -> R, exists y : nat -> R, forall k, (k < j)%nat -> bs j (fun i => y i * L i k) = b k.
Proof.
  intros HL. induction j as [|j IH]; intros HD b; [exists (fun _ => 0); intros; lia|].
  destruct (IH ltac:(intros; apply HD; lia) (fun k => b k - b j / L j j * L j k)) as (y & Hy).
  exists (fun i => if Nat.eqb i j then b j / L j j else y i). intros k Hk. cbn [bs]. rewrite Nat.eqb_refl.
  rewrite (bs_ext j _ (fun i => y i * L i k)) by (intros i Hi; destruct (Nat.eqb_spec i j); [lia|reflexivity]).
  destruct (Nat.eq_dec k j) as [->|N].
  - rewrite (bs_ext j _ (fun _ => 0)) by (intros i Hi; rewrite HL by exact Hi; ring). rewrite bs_zero. field. apply HD. lia.
  - rewrite Hy by lia. ring.
Qed.

Theorem cholesky_factor : forall M n, positive_definite n (sym M) ->
  exists L, cholesky M n = Ret L /\ (forall i k, (i < k)%nat -> L i k = 0) /\ (forall k, (k < n)%nat -> 0 < L k k) /\
    (forall i j, (i < n)%nat -> (j < n)%nat -> bs n (fun k => L i k * L j k) = sym M i j).
Proof.
  intros M n PD.
  assert (I : forall j, (j <= n)%nat -> exists L, cholesky M j = Ret L /\ (forall i k, (i < k \/ j <= k)%nat -> L i k = 0) /\
    (forall k, (k < j)%nat -> 0 < L k k) /\ (forall i c, (c < j)%nat -> (c <= i)%nat -> bs j (fun k => L i k * L c k) = M i c)).
  { induction j as [|j IH]; intros Hj.
    - exists (fun _ _ => 0). repeat split; intros; try reflexivity; lia.
    - destruct (IH ltac:(lia)) as (L & EL & U & D & F). cbn [cholesky]. rewrite EL. cbn [bind]. unfold chol_column.
      set (d := M j j - bs j (fun k => L j k * L j k)).
      assert (Pd : 0 < d).
      { destruct (back_substitution L j ltac:(intros; apply U; lia) ltac:(intros k Hk; specialize (D k Hk); lra) (fun k => - L j k)) as (y & Hy).
        set (x i := if Nat.ltb i j then y i else if Nat.eqb i j then 1 else 0).
        assert (Q : 0 < bs n (fun i => bs n (fun k => x i * x k * sym M i k))).
        { apply PD. exists j. split; [lia|]. unfold x. rewrite Nat.ltb_irrefl, Nat.eqb_refl. lra. }
        assert (X : forall i, (j < i)%nat -> x i = 0).
        { intros i Hi. unfold x. destruct (Nat.ltb_spec i j); [lia|]. destruct (Nat.eqb_spec i j); [lia|reflexivity]. }
        assert (T : forall f, (forall i, (j < i)%nat -> f i = 0) -> bs n f = bs (S j) f).
        { intros f Hf. replace n with (S j + (n - S j))%nat by lia. rewrite bs_app. rewrite (bs_ext (n - S j) _ (fun _ => 0)) by (intros; apply Hf; lia). rewrite bs_zero. ring. }
        rewrite T in Q by (intros i Hi; rewrite (bs_ext n _ (fun _ => 0)) by (intros; rewrite X by exact Hi; ring); apply bs_zero).
        rewrite (bs_ext (S j) _ (fun i => bs (S j) (fun k => x i * x k * sym M i k))) in Q
          by (intros i Hi; apply T; intros k Hk; rewrite (X k Hk); ring).
        assert (W : forall i k, (i <= j)%nat -> (k <= j)%nat -> sym M i k = bs j (fun l => 1 * (L i l * L k l)) + (if Nat.eqb i j then if Nat.eqb k j then d else 0 else 0)).
        { assert (W0 : forall i k, (k <= i)%nat -> (i <= j)%nat -> M i k = bs j (fun l => 1 * (L i l * L k l)) + (if Nat.eqb i j then if Nat.eqb k j then d else 0 else 0)).
          { intros i k Hki Hi. rewrite (bs_ext j _ (fun l => L i l * L k l)) by (intros; ring). destruct (Nat.eq_dec k j) as [->|N].
            - assert (i = j) by lia. subst i. rewrite Nat.eqb_refl. unfold d. ring.
            - rewrite F by lia. destruct (Nat.eqb_spec k j); [lia|]. destruct (Nat.eqb i j); ring. }
          intros i k Hi Hk. unfold sym. destruct (Nat.leb_spec k i).
          - apply W0; assumption.
          - rewrite (W0 k i) by lia. rewrite (bs_ext j _ (fun l => 1 * (L i l * L k l))) by (intros; ring). f_equal. destruct (Nat.eqb i j), (Nat.eqb k j); reflexivity. }
        rewrite (bs_ext (S j) _ (fun i => bs (S j) (fun k => x i * x k * bs j (fun l => 1 * (L i l * L k l))) + (if Nat.eqb i j then d else 0))) in Q.
        2:{ intros i Hi. rewrite (bs_ext (S j) _ (fun k => x i * x k * bs j (fun l => 1 * (L i l * L k l)) + (if Nat.eqb k j then (if Nat.eqb i j then d else 0) else 0))).
            - rewrite bs_plus, bs_delta by lia. reflexivity.
            - intros k Hk. rewrite W by lia. rewrite Rmult_plus_distr_l. f_equal.
              destruct (Nat.eqb_spec i j) as [->|], (Nat.eqb_spec k j) as [->|]; try ring. unfold x. rewrite Nat.ltb_irrefl, Nat.eqb_refl. ring. }
        rewrite bs_plus, gram, bs_delta in Q by lia.
        rewrite (bs_ext j _ (fun _ => 0)) in Q; [rewrite bs_zero in Q; lra|].
        intros k Hk. cbn [bs]. rewrite (bs_ext j (fun i => x i * L i k) (fun i => y i * L i k)).
        2:{ intros i Hi. unfold x. destruct (Nat.ltb_spec i j); [reflexivity|lia]. }
        rewrite Hy by exact Hk. unfold x. rewrite Nat.ltb_irrefl, Nat.eqb_refl. ring. }
      destruct (Rltb_spec 0 d) as [_|C]; [|lra].
      assert (Sd : 0 < sqrt d) by (apply sqrt_lt_R0, Pd).
      eexists. split; [reflexivity|].
      assert (OLD : forall i k, (k < j)%nat -> (if Nat.eqb k j then if Nat.ltb i j then 0 else if Nat.eqb i j then sqrt d else (M i j - bs j (fun k => L i k * L j k)) / sqrt d else L i k) = L i k)
        by (intros i k Hk; destruct (Nat.eqb_spec k j); [lia|reflexivity]).
      repeat split.
      + intros i k Hk. destruct (Nat.eqb_spec k j) as [->|N]; [destruct (Nat.ltb_spec i j); [reflexivity|lia]|apply U; lia].
      + intros k Hk. destruct (Nat.eqb_spec k j) as [->|N]; [rewrite Nat.ltb_irrefl; exact Sd|apply D; lia].
      + intros i c Hc Hic. cbn [bs].
        rewrite (bs_ext j _ (fun k => L i k * L c k)) by (intros k Hk; rewrite !OLD by exact Hk; reflexivity).
        rewrite Nat.eqb_refl. destruct (Nat.eq_dec c j) as [->|N].
        * rewrite Nat.ltb_irrefl, Nat.eqb_refl. destruct (Nat.ltb_spec i j); [lia|]. destruct (Nat.eqb_spec i j) as [->|Ni].
          { rewrite sqrt_sqrt by lra. unfold d. ring. }
          { field. lra. }
        * destruct (Nat.ltb_spec c j); [|lia]. rewrite F by lia. ring. }
  destruct (I n (le_n n)) as (L & EL & U & D & F). exists L. split; [exact EL|]. split; [intros; apply U; lia|]. split; [exact D|].
  intros i j Hi Hj. unfold sym. destruct (Nat.leb_spec j i); [apply F; lia|].
  rewrite (bs_ext n _ (fun k => L j k * L i k)) by (intros; ring). apply F; lia.
Qed.
Print Assumptions cholesky_factor.

Theorem fgn_cholesky_covariance : forall h n t, 0 <= h < 1 -> (0 < n)%nat -> 0 < t ->
  exists out, (forall z, fgn_chol h n t z = Ret (out z)) /\
    has_covariance n n out (fun i j => Rpower (t / INR n) (2 * h) * acf_entry h i j).
Proof.
  intros h n t Hh Hn Ht.
  destruct (cholesky_factor (acf_lower h) n) as (L & EL & U & D & F).
  { intros x Hx. rewrite (bs_ext n _ (fun i => bs n (fun j => x i * x j * acf_entry h i j))); [apply acf_positive_definite; assumption|].
    intros i _. apply bs_ext. intros j _. f_equal. unfold sym, acf_lower, acf_entry. destruct (Nat.leb_spec j i) as [A|A]; [reflexivity|].
    destruct (Nat.leb_spec i j); [reflexivity|lia]. }
  set (c := Rpower (t / INR n) h).
  exists (fun z => map (fun i => bs n (fun k => (c * L i k) * z k)) (seq 0 n)). split.
  - intros z. unfold fgn_chol, fgn_cholesky, acf_matrix_sqrt. destruct (Nat.eqb_spec n 0); [lia|]. cbn [negb assertb]. rewrite EL. cbn [bind].
    f_equal. apply map_ext. intros i. fold c.
    assert (E : forall K f, rsum (map f (seq 0 K)) = bs K f).
    { induction K as [|K IH]; intros f; [reflexivity|]. rewrite seq_S, map_app, rsum_app, IH. simpl. ring. }
    rewrite E, <- bs_scal_r. apply bs_ext. intros; ring.
  - eexists. split; [reflexivity|]. intros i j Hi Hj.
    rewrite (bs_ext n _ (fun k => c * c * (L i k * L j k))) by (intros; ring). rewrite bs_scal, F by assumption.
    f_equal; [unfold c; rewrite <- Rpower_plus; f_equal; ring|].
    unfold sym, acf_lower, acf_entry. destruct (Nat.leb_spec j i) as [A|A]; [reflexivity|]. destruct (Nat.leb_spec i j); [reflexivity|lia].
Qed.
Print Assumptions fgn_cholesky_covariance.

(** ** The running sums are fractional Brownian motion *)
Definition partial (p : nat) (l : list R) : R := rsum (firstn p l).
Definition path_covariance (n K : nat) (out : (nat -> R) -> list R) (c : nat -> nat -> R) : Prop :=
  exists load : nat -> nat -> R,
    (forall z p, (p <= n)%nat -> partial p (out z) = bs K (fun k => load p k * z k)) /\
    (forall p q, (p <= n)%nat -> (q <= n)%nat -> bs K (fun k => load p k * load q k) = c p q).
Lemma running_sums n K out c : has_covariance n K out c -> path_covariance n K out (fun p q => bs p (fun i => bs q (fun j => c i j))).
Proof.
  intros (load & E & C). exists (fun p k => bs p (fun i => load i k)). split.
  - intros z p Hp. unfold partial. rewrite E.
    assert (G : forall (f : nat -> R) r n0 a, (r <= n0)%nat -> rsum (firstn r (map f (seq a n0))) = bs r (fun i => f (a + i)%nat)).
    { intros f r. induction r as [|p0 IH]; intros n0 a H; [reflexivity|]. destruct n0 as [|n0]; [lia|].
      cbn [seq map firstn]. change (rsum (f a :: firstn p0 (map f (seq (S a) n0)))) with (f a + rsum (firstn p0 (map f (seq (S a) n0)))).
      rewrite IH by lia. rewrite bs_shift. rewrite Nat.add_0_r. f_equal. apply bs_ext. intros; f_equal; lia. }
    rewrite G by exact Hp. rewrite bs_swap. apply bs_ext. intros k _. simpl. rewrite bs_scal_r. reflexivity.
  - intros p q Hp Hq.
    rewrite (bs_ext K _ (fun k => bs p (fun i => bs q (fun j => load i k * load j k)))).
    2:{ intros k _. rewrite <- bs_scal_r. apply bs_ext. intros i _. rewrite <- bs_scal. reflexivity. }
    rewrite bs_swap. apply bs_ext. intros i Hi. rewrite bs_swap. apply bs_ext. intros j Hj. apply C; lia.
Qed.
Lemma scaled_block h n t p q : 0 < h -> (0 < n)%nat -> 0 < t ->
  bs p (fun i => bs q (fun j => Rpower (t / INR n) (2 * h) * acf_entry h i j)) = fbm_cov h (t / INR n * INR p) (t / INR n * INR q).
Proof.
  intros Hh Hn Ht. assert (0 < INR n) by (apply lt_0_INR, Hn).
  rewrite fbm_cov_scale by (apply Rdiv_lt_0_compat; lra). rewrite <- acf_block by exact Hh. rewrite <- bs_scal. apply bs_ext. intros i _. rewrite bs_scal. reflexivity.
Qed.
Theorem fractional_brownian_paths : forall h n t, 0 < h -> (0 < n)%nat -> 0 < t ->
  let dt := t / INR n in let c := fun p q => fbm_cov h (dt * INR p) (dt * INR q) in
  (h <= 1 -> exists out, (forall z, fgn_fft h n t (fun k => z (2 * k)%nat) (fun k => z (2 * k + 1)%nat) = Ret (map Some (out z))) /\ path_covariance n (2 * (2 * n)) out c) /\
  (h < 1 -> exists out, (forall z, fgn_chol h n t z = Ret (out z)) /\ path_covariance n n out c).
Proof.
  intros h n t Hh Hn Ht dt c. split; intros H1.
  - destruct (fgn_fft_covariance h n t ltac:(lra) Hn Ht) as (out & E & C). exists out. split; [exact E|].
    destruct (running_sums _ _ _ _ C) as (load & A & B). exists load. split; [exact A|]. intros p q Hp Hq. rewrite B, scaled_block by assumption. reflexivity.
  - destruct (fgn_cholesky_covariance h n t ltac:(lra) Hn Ht) as (out & E & C). exists out. split; [exact E|].
    destruct (running_sums _ _ _ _ C) as (load & A & B). exists load. split; [exact A|]. intros p q Hp Hq. rewrite B, scaled_block by assumption. reflexivity.
Qed.
Print Assumptions fractional_brownian_paths.
Example fgn_case : exists out, (forall z, fgn_chol (3 / 10) 4 2 z = Ret (out z)) /\
  path_covariance 4 4 out (fun p q => fbm_cov (3 / 10) (2 / INR 4 * INR p) (2 / INR 4 * INR q)).
Proof. apply (fractional_brownian_paths (3 / 10) 4 2); lra || lia. Qed.
Example fgn_case_fft : exists out, (forall z, fgn_fft 1 4 2 (fun k => z (2 * k)%nat) (fun k => z (2 * k + 1)%nat) = Ret (map Some (out z))) /\
  path_covariance 4 16 out (fun p q => fbm_cov 1 (2 / INR 4 * INR p) (2 / INR 4 * INR q)).
Proof. apply (fractional_brownian_paths 1 4 2); lra || lia. Qed.
Example positive_definite_case : 0 < bs 2 (fun i => bs 2 (fun j => (fun k => INR k - 1) i * (fun k => INR k - 1) j * acf_entry (7 / 10) i j)).
Proof. apply acf_positive_definite; [lra|]. exists O. split; [lia|]. simpl. lra. Qed.
Example cholesky_case : exists L, cholesky (acf_lower (7 / 10)) 3 = Ret L.
Proof.
  destruct (fgn_cholesky_covariance (7 / 10) 3 1 ltac:(lra) ltac:(lia) ltac:(lra)) as (out & E & _). specialize (E (fun _ => 0)).
  unfold fgn_chol, fgn_cholesky, acf_matrix_sqrt in E. cbn [Nat.eqb negb assertb] in E.
  destruct (cholesky (acf_lower (7 / 10)) 3) as [L| |]; [exists L; reflexivity|discriminate|discriminate].
Qed.
(** the Hurst index 1, which both generators accept, makes the Cholesky method panic *)
Theorem fgn_cholesky_hurst_one_panics : forall n t z, (2 <= n)%nat -> fgn_chol 1 n t z = Panic.
Proof.
  intros n t z Hn. unfold fgn_chol, fgn_cholesky, acf_matrix_sqrt. destruct (Nat.eqb_spec n 0); [lia|]. cbn [negb assertb].
  replace (cholesky (acf_lower 1) n) with (@Panic mat); [reflexivity|]. symmetry.
  assert (E1 : exists L, cholesky (acf_lower 1) 1 = Ret L /\ L 1%nat 0%nat = 1).
  { cbn [cholesky bind]. unfold chol_column. simpl bs. unfold acf_lower at 1. simpl Nat.leb. cbv iota. rewrite acf_one, Rminus_0_r.
    destruct (Rltb_spec 0 1); [|lra]. eexists. split; [reflexivity|]. simpl. unfold acf_lower. simpl Nat.leb. cbv iota. rewrite acf_one. simpl. rewrite ?acf_one, ?Rminus_0_r, sqrt_1. field. }
  destruct E1 as (L & EL & L10).
  assert (E2 : cholesky (acf_lower 1) 2 = Panic).
  { cbn [cholesky] in EL |- *. rewrite EL. cbn [bind]. unfold chol_column. simpl bs. rewrite L10. unfold acf_lower. simpl Nat.leb. cbv iota. rewrite acf_one.
    destruct (Rltb_spec 0 (1 - (0 + 1 * 1))); [lra|reflexivity]. }
  replace n with (n - 2 + 2)%nat by lia. generalize (n - 2)%nat. induction n1 as [|k IH]; [exact E2|].
  cbn [plus cholesky]. rewrite IH. reflexivity.
Qed.
Print Assumptions fgn_cholesky_hurst_one_panics.
