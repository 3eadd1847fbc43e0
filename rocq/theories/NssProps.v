(** C47: the Nelson-Siegel-Svensson curve. *)
From Coq Require Import Reals QArith Qreals Bool ZArith Lra Lia.
From Coquelicot Require Import Coquelicot.
From Verif Require Import Res InterpModel InterpProofs DateModel DayCountModel AdProofs NssModel.
Open Scope R_scope.

Definition proper (m : nss) : Prop := lambda1 m <> 0 /\ lambda2 m <> 0.

(** the documented forward curve *)
Definition fwd (m : nss) (t : R) : R :=
  beta0 m + beta1 m * exp (- t / lambda1 m) + beta2 m * ((t / lambda1 m) * exp (- t / lambda1 m))
  + beta3 m * ((t / lambda2 m) * exp (- t / lambda2 m)).
Lemma forward_at_fwd m t : proper m -> forward_at m t = Some (fwd m t).
Proof.
  intros [H1 H2]. unfold forward_at. destruct (Reqb_spec (lambda1 m) 0); [contradiction|]. destruct (Reqb_spec (lambda2 m) 0); [contradiction|]. reflexivity.
Qed.

(** a primitive of the forward curve *)
Definition prim (m : nss) (t : R) : R :=
  beta0 m * t + beta1 m * (lambda1 m * (1 - exp (- t / lambda1 m)))
  + beta2 m * (lambda1 m * (1 - exp (- t / lambda1 m)) - t * exp (- t / lambda1 m))
  + beta3 m * (lambda2 m * (1 - exp (- t / lambda2 m)) - t * exp (- t / lambda2 m)).
Lemma prim_derive m t : proper m -> is_derive (prim m) t (fwd m t).
Proof. intros [H1 H2]. unfold prim, fwd. auto_derive; [repeat split; assumption|]. unfold Rdiv. field. split; assumption. Qed.
Lemma spot_prim m t : proper m -> t <> 0 -> t * spot_at m t = prim m t.
Proof.
  intros [H1 H2] Ht. unfold spot_at, prim, decay. destruct (Reqb_spec (lambda1 m) 0); [contradiction|]. destruct (Reqb_spec (lambda2 m) 0); [contradiction|].
  field. exact Ht.
Qed.

(** maturity times spot rate is the integral of the forward curve *)
Theorem nss_spot_averages_forward : forall m t, proper m -> 0 < t ->
  RInt (fwd m) 0 t = t * spot_at m t /\ forward_at m t = Some (fwd m t).
Proof.
  intros m t Hp Ht. split; [|apply forward_at_fwd, Hp]. rewrite spot_prim by (try assumption; lra). apply is_RInt_unique.
  replace (prim m t) with (minus (prim m t) (prim m 0)).
  - apply (is_RInt_derive (prim m) (fwd m)); intros x _; [apply prim_derive, Hp|].
    apply (ex_derive_continuous (fwd m)). unfold fwd. destruct Hp. auto_derive. repeat split; assumption.
  - unfold minus, plus, opp; simpl. unfold prim. destruct Hp as [H1 H2]. replace (- 0 / lambda1 m) with 0 by (field; assumption). replace (- 0 / lambda2 m) with 0 by (field; assumption).
    rewrite exp_0. ring.
Qed.
Print Assumptions nss_spot_averages_forward.

(** the forward rate is the derivative of maturity times spot rate *)
Theorem nss_forward_is_derivative : forall m t, proper m -> 0 < t ->
  exists f, forward_at m t = Some f /\ is_derive (fun u => u * spot_at m u) t f.
Proof.
  intros m t Hp Ht. exists (fwd m t). split; [apply forward_at_fwd, Hp|].
  apply is_derive_ext_loc with (prim m); [|apply prim_derive, Hp].
  assert (P : 0 < t / 2) by lra. exists (mkposreal _ P). intros u Hu. unfold ball in Hu. simpl in Hu. unfold AbsRing_ball, abs, minus, plus, opp in Hu. simpl in Hu.
  symmetry. apply spot_prim; [exact Hp|]. apply Rabs_def2 in Hu. lra.
Qed.
Print Assumptions nss_forward_is_derivative.

(** the instantaneous short end is beta0 + beta1 *)
Theorem nss_short_end : forall m, proper m -> forward_at m 0 = Some (beta0 m + beta1 m).
Proof.
  intros m Hp. rewrite forward_at_fwd by exact Hp. destruct Hp as [H1 H2]. unfold fwd. f_equal.
  replace (- 0 / lambda1 m) with 0 by (field; assumption). replace (- 0 / lambda2 m) with 0 by (field; assumption). rewrite exp_0. field. split; assumption.
Qed.
Print Assumptions nss_short_end.

(** the long end is beta0, for positive decay parameters *)
Lemma lim_decay l : 0 < l -> is_lim (fun t => exp (- t / l)) p_infty 0.
Proof.
  intros Hl. apply is_lim_ext with (fun t => exp (- / l * t)); [intros t; f_equal; field; lra|].
  eapply (is_lim_comp exp (fun t => - / l * t) p_infty 0 m_infty).
  - apply is_lim_exp_m.
  - replace m_infty with (Rbar_mult (- / l) p_infty).
    + apply is_lim_scal_l. apply is_lim_id.
    + simpl. assert (0 < / l) by (apply Rinv_0_lt_compat; exact Hl). destruct (Rle_dec 0 (- / l)); [exfalso; lra|reflexivity].
  - exists 0. intros; discriminate.
Qed.
Lemma lim_tdecay l : 0 < l -> is_lim (fun t => t / l * exp (- t / l)) p_infty 0.
Proof.
  intros Hl. apply is_lim_ext with (fun t => - ((fun y => y * exp y) (- / l * t))); [intros t; cbv beta; replace (- / l * t) with (- t / l) by (field; lra); field; lra|].
  rewrite <- Ropp_0. apply (is_lim_opp _ p_infty (Finite 0)).
  eapply (is_lim_comp (fun y => y * exp y) (fun t => - / l * t) p_infty 0 m_infty).
  - apply is_lim_mul_exp_m.
  - replace m_infty with (Rbar_mult (- / l) p_infty).
    + apply is_lim_scal_l. apply is_lim_id.
    + simpl. assert (0 < / l) by (apply Rinv_0_lt_compat; exact Hl). destruct (Rle_dec 0 (- / l)); [exfalso; lra|reflexivity].
  - exists 0. intros; discriminate.
Qed.
Lemma lim_inv_decay l : 0 < l -> is_lim (fun t => l * (1 - exp (- t / l)) / t) p_infty 0.
Proof.
  intros Hl. apply is_lim_le_le_loc with (fun _ => 0) (fun t => l * / t).
  - exists 1. intros t Ht. assert (0 < exp (- t / l)) by apply exp_pos.
    assert (exp (- t / l) < 1). { rewrite <- exp_0. apply exp_increasing. assert (0 < t / l) by (apply Rdiv_lt_0_compat; lra). unfold Rdiv in *. lra. }
    assert (0 < / t) by (apply Rinv_0_lt_compat; lra). unfold Rdiv. split; [apply Rmult_le_pos; [apply Rmult_le_pos|]; lra|].
    apply Rmult_le_compat_r; nra.
  - apply is_lim_const.
  - replace (Finite 0) with (Rbar_mult l 0) by (simpl; f_equal; ring). apply is_lim_scal_l.
    replace (Finite 0) with (Rbar_inv p_infty) by reflexivity. apply is_lim_inv; [apply is_lim_id|discriminate].
Qed.
Theorem nss_long_end : forall m, 0 < lambda1 m -> 0 < lambda2 m ->
  is_lim (fwd m) p_infty (beta0 m) /\ is_lim (spot_at m) p_infty (beta0 m).
Proof.
  intros m H1 H2.
  assert (C : forall b f, is_lim f p_infty 0 -> is_lim (fun t => b * f t) p_infty 0).
  { intros b f Hf. replace (Finite 0) with (Rbar_mult b 0) by (simpl; f_equal; ring). apply is_lim_scal_l, Hf. }
  assert (A : forall f g a b, is_lim f p_infty (Finite a) -> is_lim g p_infty (Finite b) -> is_lim (fun t => f t + g t) p_infty (a + b)).
  { intros f g a b Hf Hg. eapply is_lim_plus; [exact Hf|exact Hg|reflexivity]. }
  split.
  - replace (Finite (beta0 m)) with (Finite (beta0 m + 0 + 0 + 0)) by (f_equal; ring). unfold fwd.
    apply (A (fun t => beta0 m + beta1 m * exp (- t / lambda1 m) + beta2 m * (t / lambda1 m * exp (- t / lambda1 m))) _ (beta0 m + 0 + 0) 0).
    + apply (A (fun t => beta0 m + beta1 m * exp (- t / lambda1 m)) _ (beta0 m + 0) 0).
      * apply (A (fun _ => beta0 m)); [apply is_lim_const|]. apply C, lim_decay, H1.
      * apply C, lim_tdecay, H1.
    + apply C, lim_tdecay, H2.
  - assert (D1 : is_lim (fun t => lambda1 m * (1 - exp (- t / lambda1 m)) / t + - 1 * exp (- t / lambda1 m)) p_infty (0 + 0)).
    { apply A; [apply lim_inv_decay, H1|]. apply C, lim_decay, H1. }
    assert (D2 : is_lim (fun t => lambda2 m * (1 - exp (- t / lambda2 m)) / t + - 1 * exp (- t / lambda2 m)) p_infty (0 + 0)).
    { apply A; [apply lim_inv_decay, H2|]. apply C, lim_decay, H2. }
    replace (0 + 0) with 0 in D1, D2 by ring.
    apply is_lim_ext with (fun t => beta0 m + beta1 m * (lambda1 m * (1 - exp (- t / lambda1 m)) / t)
      + beta2 m * (lambda1 m * (1 - exp (- t / lambda1 m)) / t + - 1 * exp (- t / lambda1 m))
      + beta3 m * (lambda2 m * (1 - exp (- t / lambda2 m)) / t + - 1 * exp (- t / lambda2 m))).
    { intros t. unfold spot_at, decay. destruct (Reqb_spec (lambda1 m) 0); [lra|]. destruct (Reqb_spec (lambda2 m) 0); [lra|]. cbv zeta. unfold Rdiv. ring. }
    replace (Finite (beta0 m)) with (Finite (beta0 m + 0 + 0 + 0)) by (f_equal; ring).
    apply (A (fun t => beta0 m + beta1 m * (lambda1 m * (1 - exp (- t / lambda1 m)) / t)
      + beta2 m * (lambda1 m * (1 - exp (- t / lambda1 m)) / t + - 1 * exp (- t / lambda1 m))) _ (beta0 m + 0 + 0) 0); [|apply C, D2].
    apply (A (fun t => beta0 m + beta1 m * (lambda1 m * (1 - exp (- t / lambda1 m)) / t)) _ (beta0 m + 0) 0); [|apply C, D1].
    apply (A (fun _ => beta0 m)); [apply is_lim_const|]. apply C, lim_inv_decay, H1.
Qed.
Print Assumptions nss_long_end.

(** ** At the level of dates *)

Lemma tau_pos today d : valid today -> valid d -> date_ltb today d = true ->
  tau_of today d = Ret (IZR (daynum d - daynum today) / (1461 / 4)) /\ 0 < IZR (daynum d - daynum today) / (1461 / 4).
Proof.
  intros Vt Vd H. pose proof (proj1 (daynum_lt today d Vt Vd) H) as L. split.
  - unfold tau_of. cbn [day_count_factor bind]. unfold over, whole_days. f_equal. unfold Qdiv. rewrite Q2R_mult, Q2R_inv by discriminate.
    unfold Q2R at 1, Q2R. simpl. unfold Rdiv. rewrite Rinv_1. f_equal. ring.
  - apply Rdiv_lt_0_compat; [|lra]. apply IZR_lt. lia.
Qed.

(** every call with a date after today succeeds, every other call panics *)
Theorem nss_dates : forall m today d, valid today -> valid d -> proper m ->
  let t := IZR (daynum d - daynum today) / (365 + 1 / 4) in
  (date_ltb today d = true ->
     0 < t /\ forward_rate m today d = Ret (Some (fwd m t)) /\ spot_rate m today d = Ret (spot_at m t) /\
     exists p, discount_factor m today d = Ret p /\ p = exp (- RInt (fwd m) 0 t / 100)) /\
  (date_ltb today d = false -> forward_rate m today d = Panic /\ spot_rate m today d = Panic /\ discount_factor m today d = Panic).
Proof.
  intros m today d Vt Vd Hp t. split; intros H.
  - destruct (tau_pos today d Vt Vd H) as [E P]. replace (1461 / 4) with (365 + 1 / 4) in * by lra. fold t in E, P.
    split; [exact P|]. unfold discount_factor, forward_rate, spot_rate. rewrite H, E. cbn [assertb bind]. split; [rewrite forward_at_fwd by exact Hp; reflexivity|].
    split; [reflexivity|]. eexists. split; [reflexivity|]. f_equal. destruct (nss_spot_averages_forward m t Hp P) as [R _]. rewrite R. field.
  - unfold discount_factor, forward_rate, spot_rate. rewrite H. cbn. repeat split. 
Qed.
Print Assumptions nss_dates.

(** discount factors: in (0,1) for positive forward curves and decreasing in the date *)
Theorem nss_discount_monotone : forall m today d1 d2 p1 p2, valid today -> valid d1 -> valid d2 -> proper m ->
  (forall t, 0 <= t -> 0 < fwd m t) -> date_ltb d1 d2 = true ->
  discount_factor m today d1 = Ret p1 -> discount_factor m today d2 = Ret p2 -> 0 < p2 < p1 /\ p1 < 1.
Proof.
  intros m today d1 d2 p1 p2 Vt V1 V2 Hp Hf Hd E1 E2.
  assert (G : forall d p, valid d -> discount_factor m today d = Ret p ->
    let t := IZR (daynum d - daynum today) / (365 + 1 / 4) in 0 < t /\ p = exp (- prim m t / 100)).
  { intros d p Vd E t. destruct (nss_dates m today d Vt Vd Hp) as [A B]. fold t in A.
    destruct (date_ltb today d); [|destruct (B eq_refl) as (_ & _ & C); congruence].
    destruct (A eq_refl) as (P & _ & _ & q & Eq & ->). split; [exact P|]. assert (p = exp (- RInt (fwd m) 0 t / 100)) by congruence. subst p.
    destruct (nss_spot_averages_forward m t Hp P) as [R _]. rewrite R, spot_prim by (try assumption; lra). reflexivity. }
  destruct (G d1 p1 V1 E1) as [P1 ->]. destruct (G d2 p2 V2 E2) as [P2 ->]. clear G.
  set (t1 := IZR (daynum d1 - daynum today) / (365 + 1 / 4)) in *. set (t2 := IZR (daynum d2 - daynum today) / (365 + 1 / 4)) in *.
  assert (L : t1 < t2). { apply (daynum_lt d1 d2 V1 V2) in Hd. unfold t1, t2, Rdiv. apply Rmult_lt_compat_r; [apply Rinv_0_lt_compat; lra|]. apply IZR_lt. lia. }
  assert (M : forall a b, 0 <= a < b -> prim m a < prim m b).
  { intros a b [Ha Hab]. destruct (MVT_gen (prim m) a b (fwd m)) as (c & Hc & E).
    - intros; apply prim_derive, Hp.
    - intros x _. apply continuity_pt_filterlim. apply (ex_derive_continuous (prim m)). eexists. apply prim_derive, Hp.
    - rewrite Rmin_left in Hc by lra. assert (0 < fwd m c) by (apply Hf; lra). nra. }
  assert (Z : prim m 0 = 0).
  { unfold prim. destruct Hp as [H1 H2]. replace (- 0 / lambda1 m) with 0 by (field; assumption). replace (- 0 / lambda2 m) with 0 by (field; assumption). rewrite exp_0. ring. }
  pose proof (M 0 t1 ltac:(lra)). pose proof (M t1 t2 ltac:(lra)).
  split; [split; [apply exp_pos|apply exp_increasing; unfold Rdiv; lra]|]. rewrite <- exp_0. apply exp_increasing. lra.
Qed.
Print Assumptions nss_discount_monotone.

(** Finding: the default (all zero) parameters give a NaN forward rate. *)
Theorem nss_zero_lambda_refuted : forall m t, lambda1 m = 0 \/ lambda2 m = 0 -> forward_at m t = None.
Proof.
  intros m t H. unfold forward_at. destruct (Reqb_spec (lambda1 m) 0); [reflexivity|]. destruct (Reqb_spec (lambda2 m) 0); [reflexivity|]. destruct H; contradiction.
Qed.
Print Assumptions nss_zero_lambda_refuted.

(** Non-vacuity: flat-plus-hump parameters with a positive forward curve. *)
Example ex_nss : let m := Nss 5 (-1) 2 1 2 1 in proper m /\ (forall t, 0 <= t -> 0 < fwd m t).
Proof.
  cbv zeta. split; [split; simpl; lra|]. intros t Ht. unfold fwd. simpl.
  assert (A : exp (- t / 2) <= 1). { rewrite <- exp_0. destruct (Req_dec t 0) as [->|N]; [right; f_equal; field|]. left. apply exp_increasing. lra. }
  assert (0 < exp (- t / 2)) by apply exp_pos. assert (0 < exp (- t / 1)) by apply exp_pos.
  assert (0 <= t / 2 * exp (- t / 2)) by (apply Rmult_le_pos; lra). assert (0 <= t / 1 * exp (- t / 1)) by (apply Rmult_le_pos; lra). lra.
Qed.
Example ex_nss_dates : valid (Date 2024 1 1) /\ valid (Date 2025 1 1) /\ date_ltb (Date 2024 1 1) (Date 2025 1 1) = true.
Proof. repeat split; discriminate. Qed.
