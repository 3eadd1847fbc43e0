(** C102: numerical integration computed with binary64 arithmetic. *)
From Coq Require Import ZArith Reals Lra Lia List Bool Psatz.
From Coquelicot Require Import Coquelicot.
From Flocq Require Import Core.Core IEEE754.BinarySingleNaN.
From Verif Require Import Res QuadModel QuadMath QuadProps F64Model F64Base F64Sum F64RootModel F64QuadModel.
Import ListNotations.
Open Scope R_scope.

(** ** The tables *)
(** each entry is the double nearest to the decimal of the source *)
Definition near_ok (d : decimal) (p : Z * Z) : bool := let '(m, e) := p in let '(q, s) := d in
  ((0 <=? s) && (-1074 <=? e) && (e <=? 0) && (Z.abs m <=? 2 ^ 53) &&
   (2 * Z.abs (m * 10 ^ s - q * 2 ^ (- e)) <=? 10 ^ s) && (2 ^ 53 * Z.abs (m * 10 ^ s - q * 2 ^ (- e)) <=? Z.abs q * 2 ^ (- e)))%Z.
Lemma weights_near : forallb (fun i => near_ok (nth i WEIGHTS (dec 0 0)) (nth i WEIGHTS64 (0, 0)%Z)) (seq 0 100) = true. Proof. vm_compute. reflexivity. Qed.
Lemma nodes_near : forallb (fun i => near_ok (nth i ABSCISSAE (dec 0 0)) (nth i ABSCISSAE64 (0, 0)%Z)) (seq 0 100) = true. Proof. vm_compute. reflexivity. Qed.
Lemma entry_R m e : (-1074 <= e <= 0)%Z -> (Z.abs m <= 2 ^ 53)%Z -> fin (entry (m, e)) /\ val (entry (m, e)) = IZR m * bpow radix2 e.
Proof.
  intros He Hm. assert (E : rnd (IZR m * bpow radix2 e) = IZR m * bpow radix2 e).
  { apply rnd_id. destruct (Z.eq_dec (Z.abs m) (2 ^ 53)) as [Q|Q].
    - assert (IZR m = bpow radix2 53 \/ IZR m = - bpow radix2 53) as [-> | ->].
      { change (bpow radix2 53) with (IZR (2 ^ 53)). rewrite <- opp_IZR. destruct (Z.abs_eq_or_opp m); [left|right]; f_equal; lia. }
      + rewrite <- bpow_plus. apply generic_format_bpow. unfold SpecFloat.fexp, SpecFloat.emin, FLT_exp. lia.
      + rewrite Ropp_mult_distr_l_reverse, <- bpow_plus. apply generic_format_opp, generic_format_bpow. unfold FLT_exp. lia.
    - apply (generic_format_FLT radix2 (-1074) 53). exists (Float radix2 m e); [reflexivity|cbn; lia|cbn; lia]. }
  destruct (lit_R m e) as [A B]; [|split; [exact A|unfold entry; cbn [fst snd]; rewrite B; exact E]].
  rewrite E, Rabs_mult, (Rabs_pos_eq (bpow radix2 e)) by apply bpow_ge_0. rewrite <- abs_IZR.
  apply Rle_lt_trans with (IZR (2 ^ 53) * bpow radix2 0).
  - apply Rmult_le_compat; [apply IZR_le; lia|apply bpow_ge_0|apply IZR_le, Hm|apply bpow_le; lia].
  - change (IZR (2 ^ 53)) with (bpow radix2 53). rewrite <- bpow_plus. apply bpow_lt. lia.
Qed.
Lemma near_spec d p : near_ok d p = true -> fin (entry p) /\ Rabs (val (entry p) - dval d) <= / 2 * bpow radix2 (snd p) /\ Rabs (val (entry p) - dval d) <= u * Rabs (dval d).
Proof.
  destruct p as [m e], d as [q s]. unfold near_ok. rewrite !andb_true_iff, !Z.leb_le. intros (((((S0 & E1) & E2) & M1) & H1) & H2).
  destruct (entry_R m e ltac:(lia) M1) as [FN V]. split; [exact FN|]. rewrite V. unfold dval. cbn [fst snd].
  assert (T : 0 < IZR (10 ^ s)) by (apply IZR_lt, Z.pow_pos_nonneg; lia).
  assert (P : bpow radix2 e = / IZR (2 ^ (- e))).
  { change (2 ^ (- e))%Z with (Zpower radix2 (- e)). rewrite IZR_Zpower by lia. rewrite <- bpow_opp. f_equal. lia. }
  assert (T2 : 0 < IZR (2 ^ (- e))) by (apply IZR_lt, Z.pow_pos_nonneg; lia). rewrite P. set (X := IZR (2 ^ (- e))) in *. set (Y := IZR (10 ^ s)) in *.
  assert (D : Rabs (IZR m * / X - IZR q / Y) = IZR (Z.abs (m * 10 ^ s - q * 2 ^ (- e))) * / (X * Y)).
  { rewrite abs_IZR, minus_IZR, !mult_IZR. fold X. fold Y. rewrite <- (Rabs_pos_eq (/ (X * Y))) by (left; apply Rinv_0_lt_compat, Rmult_lt_0_compat; assumption).
    rewrite <- Rabs_mult. f_equal. field. lra. }
  rewrite D. apply IZR_le in H1, H2. rewrite mult_IZR in H1. rewrite !mult_IZR in H2. fold X in H2. fold Y in H1. set (N := IZR (Z.abs (m * 10 ^ s - q * 2 ^ (- e)))) in *.
  assert (XY : 0 < / (X * Y)) by (apply Rinv_0_lt_compat, Rmult_lt_0_compat; assumption). split.
  - replace (/ 2 * / X) with (/ 2 * Y * / (X * Y)) by (field; lra). apply Rmult_le_compat_r; lra.
  - unfold Rdiv. rewrite Rabs_mult, (Rabs_pos_eq (/ Y)) by (left; apply Rinv_0_lt_compat, T). rewrite <- abs_IZR.
    replace (u * (IZR (Z.abs q) * / Y)) with (u * (IZR (Z.abs q) * X) * / (X * Y)) by (field; lra). apply Rmult_le_compat_r; [lra|].
    unfold u. apply Rmult_le_reg_l with (IZR (2 ^ 53)); [apply IZR_lt; reflexivity|]. rewrite <- Rmult_assoc, Rinv_r, Rmult_1_l by (apply IZR_neq; discriminate). exact H2.
Qed.
Theorem tables64_nearest : forall i, (i < 100)%nat ->
  fin (wt64 i) /\ Rabs (val (wt64 i) - wt i) <= / 2 * bpow radix2 (snd (nth i WEIGHTS64 (0, 0)%Z)) /\ Rabs (val (wt64 i) - wt i) <= u * wt i /\
  fin (nd64 i) /\ Rabs (val (nd64 i) - nd i) <= / 2 * bpow radix2 (snd (nth i ABSCISSAE64 (0, 0)%Z)) /\ Rabs (val (nd64 i) - nd i) <= u /\ Rabs (val (nd64 i)) <= 1.
Proof.
  intros i Hi. assert (IN : In i (seq 0 100)) by (apply in_seq; lia).
  pose proof weights_near as W. pose proof nodes_near as N. rewrite forallb_forall in W, N. destruct (near_spec _ _ (W i IN)) as (A & B & C). destruct (near_spec _ _ (N i IN)) as (A' & B' & C').
  destruct (row_spec i IN) as (P & Q & _). fold (wt i) in *. fold (nd i) in *. rewrite (Rabs_pos_eq (wt i)) in C by exact P.
  split; [exact A|]. split; [exact B|]. split; [exact C|]. split; [exact A'|]. split; [exact B'|]. split.
  - eapply Rle_trans; [exact C'|]. pose proof u_pos. rewrite <- (Rmult_1_r u) at 2. apply Rmult_le_compat_l; lra.
  - assert (G : forallb (fun i => fle (fabs (nd64 i)) one) (seq 0 100) = true) by (vm_compute; reflexivity). rewrite forallb_forall in G. specialize (G i IN).
    apply (fle_R (fabs (nd64 i)) one) in G; [|unfold fin, fabs; rewrite is_finite_Babs; exact A'|reflexivity]. rewrite (proj2 one_R) in G. unfold val, fabs in *. rewrite B2R_Babs in G. exact G.
Qed.
Print Assumptions tables64_nearest.
Example tables64_meets : (30 < 100)%nat /\ flt (lit (-1) 0) (nd64 30) = true. Proof. split; [lia|vm_compute; reflexivity]. Qed.

(** ** Rounding errors of the rule *)
Lemma u_tiny : u <= / 1000000. Proof. unfold u. apply Rinv_le_contravar; [lra|]. apply IZR_le. vm_compute. discriminate. Qed.
Lemma eta_tiny : eta <= / 1000000.
Proof. unfold eta. assert (bpow radix2 (-1074) <= bpow radix2 (-20)) by (apply bpow_le; lia). change (bpow radix2 (-20)) with (/ 1048576) in H. lra. Qed.
Lemma rnd_abs_err x : Rabs (rnd x - x) <= u * Rabs x + eta.
Proof.
  destruct (rnd_err x) as (e & h & He & Hh & ->). replace (x * (1 + e) + h - x) with (e * x + h) by ring. eapply Rle_trans; [apply Rabs_triang|]. rewrite Rabs_mult.
  apply Rplus_le_compat; [apply Rmult_le_compat_r; [apply Rabs_pos|exact He]|exact Hh].
Qed.
Lemma rnd_sum_err x y : fmt x -> fmt y -> Rabs (rnd (x + y) - (x + y)) <= u * Rabs (x + y).
Proof.
  intros X Y. destruct (rnd_plus_err x y X Y) as (e & He & ->). replace ((x + y) * (1 + e) - (x + y)) with (e * (x + y)) by ring. rewrite Rabs_mult. apply Rmult_le_compat_r; [apply Rabs_pos|exact He].
Qed.
Lemma rnd_cap e x : (-1074 <= e < 1024)%Z -> Rabs x <= bpow radix2 e -> Rabs (rnd x) <= bpow radix2 e /\ Rabs (rnd x) < fmaxR.
Proof.
  intros E X. assert (G : fmt (bpow radix2 e)) by (apply generic_format_bpow; unfold FLT_exp; lia).
  assert (Rabs (rnd x) <= bpow radix2 e).
  { apply Rabs_le. apply Rabs_le_inv in X. split; [apply rnd_ge; [apply fmt_opp, G|lra]|apply rnd_le_fmt; [exact G|lra]]. }
  split; [assumption|]. eapply Rle_lt_trans; [eassumption|]. apply bpow_lt. lia.
Qed.
Lemma chalf_R : fin chalf /\ val chalf = / 2.
Proof. destruct (entry_R 1 (-1) ltac:(lia) ltac:(cbn; lia)) as [A B]. split; [exact A|]. change (val chalf) with (val (entry (1, -1)%Z)). rewrite B. change (bpow radix2 (-1)) with (/ 2). lra. Qed.
Lemma dbl_bpow e : bpow radix2 (e + 1) = 2 * bpow radix2 e. Proof. rewrite bpow_plus. change (bpow radix2 1) with 2. ring. Qed.
Lemma tri x y z : Rabs (x - z) <= Rabs (x - y) + Rabs (y - z). Proof. replace (x - z) with ((x - y) + (y - z)) by ring. apply Rabs_triang. Qed.
Lemma near_abs x y d : Rabs (x - y) <= d -> Rabs x <= Rabs y + d.
Proof. intros H. replace x with ((x - y) + y) by ring. eapply Rle_trans; [apply Rabs_triang|lra]. Qed.

Lemma prod_split x' y' x y : Rabs (x' * y' - x * y) <= Rabs (x' - x) * Rabs y' + Rabs x * Rabs (y' - y).
Proof. replace (x' * y' - x * y) with ((x' - x) * y' + x * (y' - y)) by ring. eapply Rle_trans; [apply Rabs_triang|]. rewrite !Rabs_mult. lra. Qed.

Section Rule.
  Variables a b : f64.
  Hypothesis (Fa : fin a) (Fb : fin b) (Ba : Rabs (val a) <= bpow radix2 500) (Bb : Rabs (val b) <= bpow radix2 500).
  Let c := / 2 * (val b - val a).
  Let d := / 2 * (val a + val b).
  Definition slack : R := 8 * u * Rmax (Rabs (val a)) (Rabs (val b)) + 5 * eta.

  Lemma width_max : Rabs c + Rabs d = Rmax (Rabs (val a)) (Rabs (val b)).
  Proof. unfold c, d, Rmax, Rabs. destruct (Rcase_abs (val a)), (Rcase_abs (val b)), (Rcase_abs (/ 2 * (val b - val a))), (Rcase_abs (/ 2 * (val a + val b))); destruct (Rle_dec _ _); lra. Qed.
  (** half of a rounded sum or difference *)
  Lemma half_R x y s : fin s -> val s = rnd (x + y) -> fmt x -> fmt y -> Rabs (x + y) <= bpow radix2 501 ->
    fin (fmul chalf s) /\ Rabs (val (fmul chalf s)) <= bpow radix2 500 /\ Rabs (val (fmul chalf s) - / 2 * (x + y)) <= 3 * u * Rabs (/ 2 * (x + y)) + eta.
  Proof.
    intros Fs V X Y B. destruct chalf_R as [Fh Vh]. destruct (rnd_cap 501 _ ltac:(lia) B) as [B1 _]. rewrite <- V in B1.
    assert (B2 : Rabs (/ 2 * val s) <= bpow radix2 500). { rewrite Rabs_mult, (Rabs_pos_eq (/ 2)) by lra. change 501%Z with (500 + 1)%Z in B1. rewrite dbl_bpow in B1. lra. }
    destruct (rnd_cap 500 _ ltac:(lia) B2) as [B3 B4]. destruct (fmul_R chalf s Fh Fs) as [F1 V1]; [rewrite Vh; exact B4|]. rewrite Vh in V1.
    split; [exact F1|]. rewrite V1. split; [exact B3|].
    pose proof (rnd_abs_err (/ 2 * val s)) as E1. pose proof (rnd_sum_err x y X Y) as E2. rewrite <- V in E2. pose proof (near_abs _ _ _ E2) as E3.
    pose proof u_pos. pose proof u_tiny. eapply Rle_trans; [apply (tri _ (/ 2 * val s))|]. rewrite <- Rmult_minus_distr_l.
    rewrite !Rabs_mult in *. rewrite (Rabs_pos_eq (/ 2)) in * by lra. set (z := Rabs (x + y)) in *. assert (0 <= z) by apply Rabs_pos. set (w := Rabs (val s)) in *.
    assert (u * w <= u * (z + u * z)) by (apply Rmult_le_compat_l; lra). assert (0 <= u * z) by (apply Rmult_le_pos; lra). assert (u * (u * z) <= / 1000000 * (u * z)) by (apply Rmult_le_compat_r; lra). lra.
  Qed.
  Lemma scale_R : fin (cscale a b) /\ Rabs (val (cscale a b)) <= bpow radix2 500 /\ Rabs (val (cscale a b) - c) <= 3 * u * Rabs c + eta.
  Proof.
    assert (W : Rabs (val b + - val a) <= bpow radix2 501). { eapply Rle_trans; [apply Rabs_triang|]. rewrite Rabs_Ropp. change 501%Z with (500 + 1)%Z. rewrite dbl_bpow. lra. }
    destruct (fsub_R b a Fb Fa) as [F1 V1]; [unfold Rminus; apply (rnd_cap 501); [lia|exact W]|].
    exact (half_R (val b) (- val a) (fsub b a) F1 V1 (val_fmt b) (fmt_opp _ (val_fmt a)) W).
  Qed.
  Lemma shift_R : fin (cshift a b) /\ Rabs (val (cshift a b)) <= bpow radix2 500 /\ Rabs (val (cshift a b) - d) <= 3 * u * Rabs d + eta.
  Proof.
    assert (W : Rabs (val a + val b) <= bpow radix2 501). { eapply Rle_trans; [apply Rabs_triang|]. change 501%Z with (500 + 1)%Z. rewrite dbl_bpow. lra. }
    destruct (fadd_R a b Fa Fb) as [F1 V1]; [apply (rnd_cap 501); [lia|exact W]|].
    exact (half_R (val a) (val b) (fadd a b) F1 V1 (val_fmt a) (val_fmt b) W).
  Qed.
  (** the integrand is evaluated close to the exact node *)
  Lemma node_R i : (i < 100)%nat -> fin (node64 a b (nd64 i)) /\ Rabs (val (node64 a b (nd64 i)) - (c * nd i + d)) <= slack.
  Proof.
    intros Hi. destruct (tables64_nearest i Hi) as (_ & _ & _ & Ft & _ & Et & Bt). destruct scale_R as (Fc & Bc & Ec). destruct shift_R as (Fd & Bd & Ed).
    set (t := val (nd64 i)) in *. set (c' := val (cscale a b)) in *. set (d' := val (cshift a b)) in *.
    assert (B1 : Rabs (c' * t) <= bpow radix2 500). { rewrite Rabs_mult. rewrite <- (Rmult_1_r (bpow radix2 500)). apply Rmult_le_compat; try apply Rabs_pos; assumption. }
    destruct (rnd_cap 500 _ ltac:(lia) B1) as [B2 B3]. destruct (fmul_R (cscale a b) (nd64 i) Fc Ft B3) as [Fp Vp]. fold c' in Vp. fold t in Vp.
    set (p := val (fmul (cscale a b) (nd64 i))) in *.
    assert (B4 : Rabs (p + d') <= bpow radix2 501). { eapply Rle_trans; [apply Rabs_triang|]. change 501%Z with (500 + 1)%Z. rewrite dbl_bpow, Vp. lra. }
    destruct (rnd_cap 501 _ ltac:(lia) B4) as [_ B5]. destruct (fadd_R _ (cshift a b) Fp Fd B5) as [Fx Vx]. fold p in Vx. fold d' in Vx.
    split; [exact Fx|]. unfold node64. rewrite Vx. unfold slack. rewrite <- width_max.
    pose proof (rnd_sum_err p d' (val_fmt _) (val_fmt _)) as E1. pose proof (rnd_abs_err (c' * t)) as E2. rewrite <- Vp in E2.
    pose proof u_pos as U0. pose proof u_tiny as U1. pose proof eta_pos as H0. pose proof eta_tiny as H1.
    assert (N1 : Rabs (nd i) <= 1) by (apply (row_spec i); apply in_seq; lia).
    set (C := Rabs c) in *. set (D := Rabs d) in *. assert (0 <= C) by apply Rabs_pos. assert (0 <= D) by apply Rabs_pos.
    assert (UC : 0 <= u * C) by (apply Rmult_le_pos; lra). assert (UD : 0 <= u * D) by (apply Rmult_le_pos; lra).
    assert (UUC : u * (u * C) <= / 1000000 * (u * C)) by (apply Rmult_le_compat_r; lra). assert (UUD : u * (u * D) <= / 1000000 * (u * D)) by (apply Rmult_le_compat_r; lra).
    assert (UE : u * eta <= / 1000000 * eta) by (apply Rmult_le_compat_r; lra). assert (UE0 : 0 <= u * eta) by (apply Rmult_le_pos; lra).
    assert (E3 : Rabs (c' * t - c * nd i) <= 4 * (u * C) + eta).
    { replace (c' * t - c * nd i) with ((c' - c) * t + c * (t - nd i)) by ring. eapply Rle_trans; [apply Rabs_triang|]. rewrite !Rabs_mult. fold C.
      assert (Rabs (c' - c) * Rabs t <= (3 * u * C + eta) * 1) by (apply Rmult_le_compat; try apply Rabs_pos; assumption).
      assert (C * Rabs (t - nd i) <= C * u) by (apply Rmult_le_compat_l; assumption). lra. }
    assert (CN : Rabs (c * nd i) <= C). { rewrite Rabs_mult. fold C. rewrite <- (Rmult_1_r C) at 2. apply Rmult_le_compat_l; assumption. }
    pose proof (near_abs _ _ _ E3) as E4. assert (E5 : u * Rabs (c' * t) <= u * (C + (4 * (u * C) + eta))) by (apply Rmult_le_compat_l; lra).
    assert (E6 : Rabs (p - c * nd i) <= 6 * (u * C) + 3 * eta). { eapply Rle_trans; [apply (tri _ (c' * t))|]. lra. }
    pose proof (near_abs _ _ _ E6) as E7. pose proof (near_abs _ _ _ Ed) as E8. fold D in E8.
    assert (E9 : Rabs (p + d') <= C + 6 * (u * C) + 3 * eta + D + 3 * (u * D) + eta) by (eapply Rle_trans; [apply Rabs_triang|lra]).
    assert (E10 : u * Rabs (p + d') <= u * (C + 6 * (u * C) + 3 * eta + D + 3 * (u * D) + eta)) by (apply Rmult_le_compat_l; lra).
    eapply Rle_trans; [apply (tri _ (p + d'))|]. replace (p + d' - (c * nd i + d)) with ((p - c * nd i) + (d' - d)) by ring.
    pose proof (Rabs_triang (p - c * nd i) (d' - d)) as E11. lra.
  Qed.
  Lemma exact_node_in i : (i < 100)%nat -> Rmin (val a) (val b) <= c * nd i + d <= Rmax (val a) (val b).
  Proof.
    intros Hi. assert (N : Rabs (nd i) <= 1) by (apply (row_spec i); apply in_seq; lia). apply Rabs_le_inv in N. unfold c, d, Rmin, Rmax. destruct (Rle_dec (val a) (val b)); nra.
  Qed.
  Lemma slack_pos : 0 <= slack.
  Proof. unfold slack. rewrite <- width_max. pose proof u_pos. pose proof eta_pos. pose proof (Rabs_pos c). pose proof (Rabs_pos d). assert (0 <= u * (Rabs c + Rabs d)) by (apply Rmult_le_pos; lra). lra. Qed.

  Variables (f : f64 -> f64) (g : R -> R) (L M ef : R).
  Let lo := Rmin (val a) (val b) - slack.
  Let hi := Rmax (val a) (val b) + slack.
  Hypothesis Hf : forall x, fin x -> lo <= val x <= hi -> fin (f x) /\ Rabs (val (f x)) <= M /\ Rabs (val (f x) - g (val x)) <= ef.
  Hypothesis HL : forall x y, lo <= x <= hi -> lo <= y <= hi -> Rabs (g x - g y) <= L * Rabs (x - y).
  Hypothesis (L0 : 0 <= L) (HM : M <= bpow radix2 500).
  Let h := fun t => let out := f (node64 a b t) in if is_finite out then out else zero.
  Let term := fun i => fmul (wt64 i) (h (nd64 i)).

  Lemma term_R i : (i < 100)%nat -> fin (term i) /\ Rabs (val (term i)) <= bpow radix2 500 /\
    Rabs (val (term i) - wt i * g (c * nd i + d)) <= wt i * (3 * u * M + ef + L * slack) + eta /\ Rabs (val (term i)) <= wt i * ((1 + 3 * u) * M) + eta.
  Proof.
    intros Hi. destruct (node_R i Hi) as [Fx Ex]. pose proof (exact_node_in i Hi) as IN. pose proof slack_pos as SP. apply Rabs_le_inv in Ex as Ex'.
    assert (R1 : lo <= val (node64 a b (nd64 i)) <= hi) by (unfold lo, hi; lra). assert (R2 : lo <= c * nd i + d <= hi) by (unfold lo, hi; lra).
    destruct (Hf _ Fx R1) as (Fv & Bv & Ev). pose proof (HL _ _ R1 R2) as Lv. set (v := val (f (node64 a b (nd64 i)))) in *. set (G := g (c * nd i + d)) in *.
    destruct (tables64_nearest i Hi) as (Fw & _ & Ew & _). destruct (row_spec i ltac:(apply in_seq; lia)) as (W0 & _).
    assert (W1 : Rabs (val (wt64 i)) <= 1).
    { assert (Q : forallb (fun i => fle (fabs (wt64 i)) one) (seq 0 100) = true) by (vm_compute; reflexivity). rewrite forallb_forall in Q. specialize (Q i ltac:(apply in_seq; lia)).
      apply (fle_R (fabs (wt64 i)) one) in Q; [|unfold fin, fabs; rewrite is_finite_Babs; exact Fw|reflexivity]. rewrite (proj2 one_R) in Q. unfold val, fabs in *. rewrite B2R_Babs in Q. exact Q. }
    assert (EH : h (nd64 i) = f (node64 a b (nd64 i))) by (unfold h; cbv zeta; unfold fin in Fv; rewrite Fv; reflexivity).
    unfold term. rewrite EH. set (w' := val (wt64 i)) in *. set (w := wt i) in *.
    assert (B1 : Rabs (w' * v) <= bpow radix2 500). { rewrite Rabs_mult. rewrite <- (Rmult_1_l (bpow radix2 500)). apply Rmult_le_compat; try apply Rabs_pos; [exact W1|lra]. }
    destruct (rnd_cap 500 _ ltac:(lia) B1) as [B2 B3]. destruct (fmul_R (wt64 i) (f (node64 a b (nd64 i))) Fw Fv B3) as [Ft Vt]. fold w' in Vt. fold v in Vt.
    split; [exact Ft|]. rewrite Vt. split; [exact B2|].
    assert (M0 : 0 <= M) by (eapply Rle_trans; [apply Rabs_pos|exact Bv]). pose proof u_pos as U0. pose proof u_tiny as U1.
    assert (UM : 0 <= w * (u * M)) by (apply Rmult_le_pos; [exact W0|apply Rmult_le_pos; lra]).
    pose proof (rnd_abs_err (w' * v)) as E1.
    assert (E2 : Rabs (w' * v - w * v) <= w * (u * M)). { rewrite <- Rmult_minus_distr_r, Rabs_mult. replace (w * (u * M)) with (u * w * M) by ring. apply Rmult_le_compat; try apply Rabs_pos; assumption. }
    assert (E3 : Rabs (w * v) <= w * M). { rewrite Rabs_mult, (Rabs_pos_eq w) by exact W0. apply Rmult_le_compat_l; assumption. }
    pose proof (near_abs _ _ _ E2) as E4. assert (E5 : u * Rabs (w' * v) <= u * (w * M + w * (u * M))) by (apply Rmult_le_compat_l; lra).
    assert (E6 : u * (w * (u * M)) <= / 1000000 * (w * (u * M))) by (apply Rmult_le_compat_r; lra).
    assert (E7 : Rabs (rnd (w' * v) - w * v) <= w * (3 * u * M) + eta). { eapply Rle_trans; [apply (tri _ (w' * v))|]. lra. }
    assert (LS : L * Rabs (val (node64 a b (nd64 i)) - (c * nd i + d)) <= L * slack) by (apply Rmult_le_compat_l; assumption).
    assert (E8 : Rabs (w * v - w * G) <= w * (ef + L * slack)).
    { rewrite <- Rmult_minus_distr_l, Rabs_mult, (Rabs_pos_eq w) by exact W0. apply Rmult_le_compat_l; [exact W0|]. eapply Rle_trans; [apply (tri _ (g (val (node64 a b (nd64 i)))))|]. lra. }
    split; [eapply Rle_trans; [apply (tri _ (w * v))|]; lra|]. pose proof (near_abs _ _ _ E7). lra.
  Qed.
  Let terms := map term (seq 0 100).
  Lemma tanhsinh64_terms : tanhsinh64 h = fold_left fadd terms zero.
  Proof. assert (G : forall l z, fold_left (fun integral i => fadd integral (term i)) l z = fold_left fadd (map term l) z) by (induction l as [|i l IH]; intros z; [reflexivity|cbn [fold_left map]; apply IH]). exact (G (seq 0 100) zero). Qed.
  Lemma exact_isum l : exact (map term l) = isum l (fun i => val (term i)). Proof. unfold exact. induction l; cbn; congruence. Qed.
  Lemma mag_isum l : mag (map term l) = isum l (fun i => Rabs (val (term i))). Proof. unfold mag. induction l; cbn; congruence. Qed.
  Lemma pow_101 : (1 + u) ^ 100 - 1 <= 101 * u.
  Proof.
    assert (G : forall n, (n <= 100)%nat -> (1 + u) ^ n <= 1 + INR n * (1 + / 1000) * u).
    { induction n as [|n IH]; intros Hn; [cbn; lra|]. specialize (IH ltac:(lia)). rewrite S_INR. cbn [pow]. assert (N : INR n <= 100) by (change 100 with (INR 100) || replace 100 with (INR 100) by (simpl; lra); apply le_INR; lia).
      pose proof (pos_INR n). pose proof u_pos. pose proof u_tiny. assert (u * u <= / 1000000 * u) by (apply Rmult_le_compat_r; lra). assert (0 <= u * u) by (apply Rmult_le_pos; lra). 
      assert (INR n * (u * u) <= 100 * (/ 1000000 * u)) by (apply Rmult_le_compat; lra).
      assert ((1 + u) * (1 + u) ^ n <= (1 + u) * (1 + INR n * (1 + / 1000) * u)) by (apply Rmult_le_compat_l; lra). lra. }
    specialize (G 100%nat (le_n _)). replace (INR 100) with 100 in G by (simpl; lra). pose proof u_pos. lra.
  Qed.
  Lemma sum_R : fin (tanhsinh64 h) /\ Rabs (val (tanhsinh64 h)) <= bpow radix2 508 /\ Rabs (val (tanhsinh64 h)) <= 3 * M + 101 * eta /\ 0 <= M /\ 0 <= ef /\
    Rabs (val (tanhsinh64 h) - qsum (fun t => g (c * t + d))) <= 2 * (ef + L * slack) + 219 * u * M + 101 * eta.
  Proof.
    assert (T : forall i, In i (seq 0 100) -> (i < 100)%nat) by (intros i Hi; apply in_seq in Hi; lia).
    pose proof u_pos as U0. pose proof u_tiny as U1. pose proof eta_pos as H0. pose proof eta_tiny as H1. pose proof slack_pos as SP.
    assert (M0 : 0 <= M /\ 0 <= ef).
    { destruct (node_R 0 ltac:(lia)) as [Fx Ex]. pose proof (exact_node_in 0 ltac:(lia)) as IN. apply Rabs_le_inv in Ex.
      destruct (Hf _ Fx ltac:(unfold lo, hi; lra)) as (_ & A & B). split; (eapply Rle_trans; [apply Rabs_pos|eassumption]). } destruct M0 as [M0 EF0].
    assert (FT : List.Forall fin terms) by (apply List.Forall_forall; intros x Hx; apply in_map_iff in Hx; destruct Hx as (i & <- & Hi); apply term_R, T, Hi).
    assert (LEN : length terms = 100%nat) by (unfold terms; rewrite map_length, seq_length; reflexivity).
    assert (MG1 : mag terms <= 100 * bpow radix2 500).
    { unfold terms. rewrite mag_isum. eapply Rle_trans; [apply (isum_le _ _ (fun _ => bpow radix2 500)); intros i Hi; apply term_R, T, Hi|]. rewrite isum_const, seq_length. replace (INR 100) with 100 by (simpl; lra). lra. }
    pose proof weights_at_most_two as W2.
    assert (MG2 : mag terms <= 2 * ((1 + 3 * u) * M) + 100 * eta).
    { unfold terms. rewrite mag_isum. eapply Rle_trans; [apply (isum_le _ _ (fun i => wt i * ((1 + 3 * u) * M) + eta)); intros i Hi; apply term_R, T, Hi|].
      rewrite isum_plus, isum_const, seq_length. rewrite (isum_ext _ _ (fun i => ((1 + 3 * u) * M) * wt i)) by (intros; ring). rewrite isum_scal. replace (INR 100) with 100 by (simpl; lra).
      assert (0 <= (1 + 3 * u) * M) by (apply Rmult_le_pos; lra). assert ((1 + 3 * u) * M * isum (seq 0 100) wt <= (1 + 3 * u) * M * 2) by (apply Rmult_le_compat_l; lra). lra. }
    pose proof pow_101 as P. pose proof (mag_pos terms) as MP.
    assert (BIG : bpow radix2 508 = 256 * bpow radix2 500) by (change 508%Z with (8 + 500)%Z; rewrite bpow_plus; change (bpow radix2 8) with 256; ring).
    pose proof (bpow_gt_0 radix2 500) as B0.
    assert (FS : fin (fold_left fadd terms zero)).
    { apply fold_fin; [reflexivity|exact FT|]. rewrite LEN. change (val zero) with 0. rewrite Rabs_R0, Rplus_0_l. apply Rle_lt_trans with (bpow radix2 508); [|apply bpow_lt; lia].
      rewrite BIG. apply Rle_trans with (2 * mag terms); [apply Rmult_le_compat_r; lra|lra]. }
    destruct (fold_err terms zero FS) as (_ & _ & E1). rewrite LEN in E1. change (val zero) with 0 in E1. rewrite Rabs_R0, !Rplus_0_l in E1. rewrite <- tanhsinh64_terms in FS, E1.
    set (S64 := val (tanhsinh64 h)) in *. split; [exact FS|].
    assert (E2 : Rabs (S64 - exact terms) <= 101 * u * mag terms) by (eapply Rle_trans; [exact E1|]; apply Rmult_le_compat_r; lra).
    assert (XM : Rabs (exact terms) <= mag terms) by (unfold terms; rewrite exact_isum, mag_isum; apply isum_abs).
    pose proof (near_abs _ _ _ E2) as E3. assert (E4 : u * mag terms <= / 1000000 * mag terms) by (apply Rmult_le_compat_r; lra).
    assert (UM : 0 <= u * M) by (apply Rmult_le_pos; lra). assert (UM1 : u * M <= / 1000000 * M) by (apply Rmult_le_compat_r; lra).
    split; [lra|]. split; [lra|]. split; [exact M0|]. split; [exact EF0|].
    assert (E5 : Rabs (exact terms - qsum (fun t => g (c * t + d))) <= 2 * (3 * u * M + ef + L * slack) + 100 * eta).
    { unfold terms, qsum. rewrite exact_isum. replace (isum (seq 0 100) (fun i => val (term i)) - isum (seq 0 100) (fun i => wt i * g (c * nd i + d))) with (isum (seq 0 100) (fun i => val (term i) + (-1) * (wt i * g (c * nd i + d)))) by (rewrite isum_plus, isum_scal; ring).
      eapply Rle_trans; [apply isum_abs|]. eapply Rle_trans; [apply (isum_le _ _ (fun i => wt i * (3 * u * M + ef + L * slack) + eta)); intros i Hi|].
      - replace (val (term i) + -1 * (wt i * g (c * nd i + d))) with (val (term i) - wt i * g (c * nd i + d)) by ring. apply term_R, T, Hi.
      - rewrite isum_plus, isum_const, seq_length. rewrite (isum_ext _ _ (fun i => (3 * u * M + ef + L * slack) * wt i)) by (intros; ring). rewrite isum_scal. replace (INR 100) with 100 by (simpl; lra).
        assert (0 <= L * slack) by (apply Rmult_le_pos; assumption). assert ((3 * u * M + ef + L * slack) * isum (seq 0 100) wt <= (3 * u * M + ef + L * slack) * 2) by (apply Rmult_le_compat_l; lra). lra. }
    assert (E6 : u * mag terms <= u * (2 * ((1 + 3 * u) * M) + 100 * eta)) by (apply Rmult_le_compat_l; lra).
    assert (E7 : u * (u * M) <= / 1000000 * (u * M)) by (apply Rmult_le_compat_r; lra). assert (E8 : u * eta <= / 1000000 * eta) by (apply Rmult_le_compat_r; lra).
    eapply Rle_trans; [apply (tri _ (exact terms))|]. lra.
  Qed.
  Lemma integrate64_R : fin (integrate64 f a b) /\
    Rabs (val (integrate64 f a b) - c * qsum (fun t => g (c * t + d))) <= Rabs c * (2 * (ef + L * slack) + 232 * u * M + 102 * eta) + (4 * M + 2) * eta.
  Proof.
    destruct sum_R as (Fs & B1 & B2 & M0 & EF0 & Es). destruct scale_R as (Fc & Bc & Ec). unfold integrate64. fold h. set (S64 := val (tanhsinh64 h)) in *. set (c' := val (cscale a b)) in *.
    assert (B3 : Rabs (c' * S64) <= bpow radix2 1008). { rewrite Rabs_mult. change 1008%Z with (500 + 508)%Z. rewrite bpow_plus. apply Rmult_le_compat; try apply Rabs_pos; assumption. }
    destruct (rnd_cap 1008 _ ltac:(lia) B3) as [_ B4]. destruct (fmul_R (cscale a b) (tanhsinh64 h) Fc Fs B4) as [Fr Vr]. split; [exact Fr|]. rewrite Vr. fold c'. fold S64.
    set (Q := qsum (fun t => g (c * t + d))) in *. pose proof (rnd_abs_err (c' * S64)) as E1. set (C := Rabs c) in *. assert (C0 : 0 <= C) by apply Rabs_pos.
    pose proof u_pos as U0. pose proof u_tiny as U1. pose proof eta_pos as H0. pose proof eta_tiny as H1. pose proof (near_abs _ _ _ Ec) as E2. fold C in E2.
    set (s := Rabs S64) in *. assert (s0 : 0 <= s) by apply Rabs_pos. set (E := 2 * (ef + L * slack) + 219 * u * M + 101 * eta) in *.
    assert (E3 : Rabs (c' * S64 - c * Q) <= (3 * u * C + eta) * s + C * E).
    { eapply Rle_trans; [apply prod_split|]. fold s. fold C.
      apply Rplus_le_compat; [apply Rmult_le_compat_r; assumption|apply Rmult_le_compat_l; assumption]. }
    rewrite Rabs_mult in E1. fold s in E1. assert (E4 : u * (Rabs c' * s) <= u * ((C + (3 * u * C + eta)) * s)) by (apply Rmult_le_compat_l; [lra|apply Rmult_le_compat_r; assumption]).
    assert (E5 : u * C * s <= u * C * (3 * M + 101 * eta)) by (apply Rmult_le_compat_l; [apply Rmult_le_pos; lra|exact B2]).
    assert (E6 : eta * s <= eta * (3 * M + 101 * eta)) by (apply Rmult_le_compat_l; lra).
    assert (E7 : u * (u * C * s) <= / 1000000 * (u * C * s)) by (apply Rmult_le_compat_r; [apply Rmult_le_pos; [apply Rmult_le_pos; lra|lra]|lra]).
    assert (E8 : u * (eta * s) <= / 1000000 * (eta * s)) by (apply Rmult_le_compat_r; [apply Rmult_le_pos; lra|lra]).
    assert (E9 : u * (C * eta) <= / 1000000 * (C * eta)) by (apply Rmult_le_compat_r; [apply Rmult_le_pos; lra|lra]).
    assert (E10 : eta * eta <= / 1000000 * eta) by (apply Rmult_le_compat_r; lra). assert (E11 : 0 <= u * (C * M)) by (apply Rmult_le_pos; [lra|apply Rmult_le_pos; lra]).
    assert (E12 : 0 <= C * eta) by (apply Rmult_le_pos; lra). assert (E13 : 0 <= M * eta) by (apply Rmult_le_pos; lra).
    eapply Rle_trans; [apply (tri _ (c' * S64))|]. unfold E in E3. lra.
  Qed.
End Rule.

(** The value computed in binary64 differs from the rule in exact arithmetic by the error of the
    integrand, its variation over the displacement of the nodes, and a few hundred roundings. *)
Theorem integrate64_error : forall (f : f64 -> f64) (g : R -> R) a b L M ef,
  let lo := Rmin (val a) (val b) - slack a b in let hi := Rmax (val a) (val b) + slack a b in
  fin a -> fin b -> Rabs (val a) <= bpow radix2 500 -> Rabs (val b) <= bpow radix2 500 -> 0 <= L -> M <= bpow radix2 500 ->
  (forall x, fin x -> lo <= val x <= hi -> fin (f x) /\ Rabs (val (f x)) <= M /\ Rabs (val (f x) - g (val x)) <= ef) ->
  (forall x y, lo <= x <= hi -> lo <= y <= hi -> Rabs (g x - g y) <= L * Rabs (x - y)) ->
  fin (integrate64 f a b) /\
  Rabs (val (integrate64 f a b) - integrate (fun x => Some (g x)) (val a) (val b)) <=
    Rabs (/ 2 * (val b - val a)) * (2 * (ef + L * slack a b) + 232 * u * M + 102 * eta) + (4 * M + 2) * eta.
Proof.
  intros f g a b L M ef lo hi Fa Fb Ba Bb L0 HM Hf HL. destruct (integrate64_R a b Fa Fb Ba Bb f g L M ef Hf HL L0 HM) as [A B]. split; [exact A|].
  rewrite (integrate_qsum (fun x => Some (g x)) g) by reflexivity. exact B.
Qed.
Print Assumptions integrate64_error.
(** ... and from the integral by that and the error of the rule *)
Theorem integrate64_lipschitz : forall (f : f64 -> f64) (g : R -> R) a b L M ef I,
  let lo := Rmin (val a) (val b) - slack a b in let hi := Rmax (val a) (val b) + slack a b in let c := Rabs (/ 2 * (val b - val a)) in
  fin a -> fin b -> Rabs (val a) <= bpow radix2 500 -> Rabs (val b) <= bpow radix2 500 -> 0 <= L -> M <= bpow radix2 500 ->
  (forall x, fin x -> lo <= val x <= hi -> fin (f x) /\ Rabs (val (f x)) <= M /\ Rabs (val (f x) - g (val x)) <= ef) ->
  (forall x y, lo <= x <= hi -> lo <= y <= hi -> Rabs (g x - g y) <= L * Rabs (x - y)) -> is_RInt g (val a) (val b) I ->
  Rabs (val (integrate64 f a b) - I) <= c * (2 * (ef + L * slack a b) + 232 * u * M + 102 * eta) + (4 * M + 2) * eta +
    c * (L * c * (/ 7 + delta 0) + delta 0 * Rabs (g (/ 2 * (val a + val b)))).
Proof.
  intros f g a b L M ef I lo hi c Fa Fb Ba Bb L0 HM Hf HL HI. destruct (integrate64_error f g a b L M ef Fa Fb Ba Bb L0 HM Hf HL) as [_ E].
  pose proof (slack_pos a b) as SP.
  pose proof (integrate_lipschitz (fun x => Some (g x)) g (val a) (val b) I L (fun x _ => eq_refl) HI L0 (fun x y Hx Hy => HL x y ltac:(unfold lo, hi; lra) ltac:(unfold lo, hi; lra))) as E'.
  eapply Rle_trans; [apply (tri _ (integrate (fun x => Some (g x)) (val a) (val b)))|]. fold c in E, E'. lra.
Qed.
Print Assumptions integrate64_lipschitz.

(** the square on [0, 1] meets the hypotheses *)
Lemma slack_unit : slack zero one <= / 1000.
Proof. unfold slack. rewrite (proj2 one_R). change (val zero) with 0. rewrite Rabs_R0, Rabs_R1, Rmax_right by lra. pose proof u_tiny. pose proof eta_tiny. lra. Qed.
Example integrate64_meets : let f := fun x => fmul x x in
  (forall x, fin x -> Rmin (val zero) (val one) - slack zero one <= val x <= Rmax (val zero) (val one) + slack zero one ->
     fin (f x) /\ Rabs (val (f x)) <= 2 /\ Rabs (val (f x) - (fun r => r * r) (val x)) <= 2 * u + eta) /\
  (forall x y : R, Rmin (val zero) (val one) - slack zero one <= x <= Rmax (val zero) (val one) + slack zero one ->
     Rmin (val zero) (val one) - slack zero one <= y <= Rmax (val zero) (val one) + slack zero one -> Rabs (x * x - y * y) <= 3 * Rabs (x - y)) /\
  (fle (fabs (fsub (integrate64 f zero one) (fdiv one (lit 3 0)))) (lit 1 (-50)) = true).
Proof.
  rewrite (proj2 one_R). change (val zero) with 0. rewrite Rmin_left, Rmax_right by lra. pose proof slack_unit as SU. pose proof (slack_pos zero one) as SP. split; [|split; [|vm_compute; reflexivity]].
  - intros x Fx Hx. assert (Q : Rabs (val x * val x) <= 1.1) by (rewrite Rabs_mult; rewrite <- (Rabs_Rabsolu (val x)); rewrite Rabs_Rabsolu; assert (Rabs (val x) <= 1.01) by (apply Rabs_le; lra); pose proof (Rabs_pos (val x)); nra).
    assert (B : Rabs (val x * val x) <= bpow radix2 1) by (change (bpow radix2 1) with 2; lra). destruct (rnd_cap 1 _ ltac:(lia) B) as [B1 B2]. destruct (fmul_R x x Fx Fx B2) as [F1 V1].
    split; [exact F1|]. rewrite V1. change (bpow radix2 1) with 2 in B1. split; [exact B1|]. pose proof (rnd_abs_err (val x * val x)) as E. pose proof u_pos. assert (u * Rabs (val x * val x) <= u * 1.1) by (apply Rmult_le_compat_l; lra). lra.
  - intros x y Hx Hy. replace (x * x - y * y) with ((x + y) * (x - y)) by ring. rewrite Rabs_mult. apply Rmult_le_compat_r; [apply Rabs_pos|]. apply Rabs_le. lra.
Qed.

(** the exponential, for any implementation of it with relative error [ef] *)
Lemma exp_cap x : x <= 301 -> exp x <= IZR (3 ^ 301).
Proof.
  intros H. apply Rle_trans with (exp 301). { destruct H as [H | ->]; [left; apply exp_increasing, H|lra]. }
  assert (E : forall n, exp (INR n) <= 3 ^ n). { induction n as [|n IH]; [cbn; rewrite exp_0; lra|]. rewrite S_INR, exp_plus. cbn [pow]. pose proof exp_le_3. pose proof (exp_pos (INR n)). rewrite Rmult_comm. apply Rmult_le_compat; try lra; left; apply exp_pos. }
  specialize (E 301%nat). rewrite INR_IZR_INZ in E. change (Z.of_nat 301) with 301%Z in E. rewrite pow_IZR in E. exact E.
Qed.
Theorem integrate64_exp : forall (f : f64 -> f64) a b ef, let hi := val b + slack a b in
  fin a -> fin b -> -300 <= val a <= val b -> val b <= 300 -> 0 <= ef <= 1 ->
  (forall x, fin x -> Rabs (val x) <= 301 -> fin (f x) /\ Rabs (val (f x) - exp (val x)) <= ef * exp (val x)) ->
  fin (integrate64 f a b) /\
  Rabs (val (integrate64 f a b) - (exp (val b) - exp (val a))) <=
    (val b - val a) / 2 * ((2 * (ef + slack a b) + 464 * u) * exp hi + 102 * eta) + (8 * exp hi + 2) * eta + (val b - val a) / 2 * / 10 ^ 15 * exp (2 * val b - val a).
Proof.
  intros f a b ef hi Fa Fb Hab Hb Hef Hf. pose proof (slack_pos a b) as SP.
  assert (K : bpow radix2 9 <= bpow radix2 500) by (apply bpow_le; lia). change (bpow radix2 9) with 512 in K.
  assert (MX : Rmax (Rabs (val a)) (Rabs (val b)) <= 300) by (apply Rmax_lub; apply Rabs_le; lra).
  assert (SL : slack a b <= 1). { unfold slack. pose proof u_pos. pose proof u_tiny. pose proof eta_tiny. assert (u * Rmax (Rabs (val a)) (Rabs (val b)) <= / 1000000 * 300) by (apply Rmult_le_compat; try lra; eapply Rle_trans; [apply Rabs_pos|apply Rmax_l]). lra. }
  assert (MI : forall x y : R, x <= y -> exp x <= exp y) by (intros x y [H | ->]; [left; apply exp_increasing, H|lra]).
  pose proof (exp_pos hi) as EP. assert (EH : 2 * exp hi <= bpow radix2 500).
  { pose proof (exp_cap hi ltac:(unfold hi; lra)) as C. change 500%Z with (499 + 1)%Z. rewrite dbl_bpow. apply Rmult_le_compat_l; [lra|]. eapply Rle_trans; [exact C|]. rewrite <- (IZR_Zpower radix2) by lia. apply IZR_le. vm_compute. discriminate. }
  destruct (integrate64_error f exp a b (exp hi) (2 * exp hi) (ef * exp hi) Fa Fb) as [A B].
  - apply Rabs_le. lra. - apply Rabs_le. lra. - lra. - exact EH.
  - rewrite Rmin_left, Rmax_right by lra. fold hi. intros x Fx Hx. destruct (Hf x Fx ltac:(apply Rabs_le; unfold hi in Hx; lra)) as [C D]. pose proof (MI _ _ (proj2 Hx)) as E. pose proof (exp_pos (val x)).
    assert (ef * exp (val x) <= ef * exp hi) by (apply Rmult_le_compat_l; lra). assert (ef * exp (val x) <= 1 * exp (val x)) by (apply Rmult_le_compat_r; lra).
    split; [exact C|]. split; [pose proof (near_abs _ _ _ D) as N; rewrite (Rabs_pos_eq (exp (val x))) in N by lra; lra|lra].
  - rewrite Rmin_left, Rmax_right by lra. fold hi. intros x y Hx Hy.
    assert (G : forall p q : R, p <= q -> q <= hi -> Rabs (exp q - exp p) <= exp hi * (q - p)).
    { intros p q Hpq Hq. rewrite Rabs_pos_eq by (pose proof (MI _ _ Hpq); lra). replace (exp p) with (exp q * exp (p - q)) by (rewrite <- exp_plus; f_equal; ring).
      pose proof (exp_ineq1_le (p - q)). pose proof (exp_pos q). pose proof (MI _ _ Hq). replace (exp q - exp q * exp (p - q)) with (exp q * (1 - exp (p - q))) by ring.
      apply Rle_trans with (exp q * (q - p)); [apply Rmult_le_compat_l; lra|apply Rmult_le_compat_r; lra]. }
    destruct (Rle_dec x y) as [C|C].
    + rewrite Rabs_minus_sym, (Rabs_minus_sym x y), (Rabs_pos_eq (y - x)) by lra. apply G; lra.
    + rewrite (Rabs_pos_eq (x - y)) by lra. apply G; lra.
  - split; [exact A|]. pose proof (integrate_exp (val a) (val b) (proj2 Hab)) as E. rewrite (Rabs_pos_eq (/ 2 * (val b - val a))) in B by lra.
    eapply Rle_trans; [apply (tri _ (integrate (fun x => Some (exp x)) (val a) (val b)))|]. eapply Rle_trans; [apply Rplus_le_compat; [exact B|exact E]|]. right. unfold Rdiv. ring.
Qed.
Print Assumptions integrate64_exp.
(** an implementation of the exponential with that accuracy exists *)
Example integrate64_exp_meets : exists f : f64 -> f64, forall x, fin x -> Rabs (val x) <= 301 -> fin (f x) /\ Rabs (val (f x) - exp (val x)) <= / 1000 * exp (val x).
Proof.
  exists (fun x => lit (ZnearestE (exp (val x) * bpow radix2 600)) (-600)). intros x _ Hx. apply Rabs_le_inv in Hx. pose proof (exp_pos (val x)) as EP.
  set (z := ZnearestE (exp (val x) * bpow radix2 600)). pose proof (Znearest_half (fun t => negb (Z.even t)) (exp (val x) * bpow radix2 600)) as NH. fold z in NH.
  assert (UB : exp (val x) <= bpow radix2 498).
  { pose proof (exp_cap (val x) ltac:(lra)) as C. eapply Rle_trans; [exact C|]. rewrite <- (IZR_Zpower radix2) by lia. apply IZR_le. vm_compute. discriminate. }
  assert (LB : bpow radix2 (-498) <= exp (val x)).
  { pose proof (exp_cap (- val x) ltac:(lra)) as C. rewrite exp_Ropp in C. change (-498)%Z with (- (498))%Z. rewrite bpow_opp. rewrite <- (Rinv_inv (exp (val x))). apply Rinv_le_contravar; [apply Rinv_0_lt_compat, EP|].
    eapply Rle_trans; [exact C|]. rewrite <- (IZR_Zpower radix2) by lia. apply IZR_le. vm_compute. discriminate. }
  pose proof (bpow_gt_0 radix2 (-600)) as P6. assert (I6 : bpow radix2 600 * bpow radix2 (-600) = 1) by (rewrite <- bpow_plus; reflexivity).
  assert (SM : bpow radix2 (-600) <= / 1000000 * exp (val x)).
  { apply Rle_trans with (/ 1000000 * bpow radix2 (-498)); [|apply Rmult_le_compat_l; lra]. apply Rmult_le_reg_l with 1000000; [lra|]. rewrite <- Rmult_assoc, Rinv_r, Rmult_1_l by lra.
    apply Rle_trans with (bpow radix2 102 * bpow radix2 (-600)); [apply Rmult_le_compat_r; [lra|]|rewrite <- bpow_plus; apply bpow_le; lia]. rewrite <- (IZR_Zpower radix2) by lia. apply IZR_le. vm_compute. discriminate. }
  set (y := IZR z * bpow radix2 (-600)). assert (Y : Rabs (y - exp (val x)) <= / 2 * bpow radix2 (-600)).
  { unfold y. replace (IZR z * bpow radix2 (-600) - exp (val x)) with (- (exp (val x) * bpow radix2 600 - IZR z) * bpow radix2 (-600)) by (rewrite Ropp_minus_distr, Rmult_minus_distr_r, Rmult_assoc, I6; ring).
    rewrite Rabs_mult, Rabs_Ropp, (Rabs_pos_eq (bpow radix2 (-600))) by lra. apply Rmult_le_compat_r; lra. }
  pose proof (near_abs _ _ _ Y) as Y1. rewrite (Rabs_pos_eq (exp (val x))) in Y1 by lra.
  assert (Y2 : Rabs y <= bpow radix2 499) by (change 499%Z with (498 + 1)%Z; rewrite dbl_bpow; lra). destruct (rnd_cap 499 y ltac:(lia) Y2) as [_ C]. destruct (lit_R z (-600) C) as [Fz Vz]. fold y in Vz.
  split; [exact Fz|]. rewrite Vz. pose proof (rnd_abs_err y) as R1. pose proof u_pos. pose proof u_tiny.
  assert (ET : eta <= bpow radix2 (-600)) by (unfold eta; pose proof (bpow_le radix2 (-1074) (-600) ltac:(lia)); pose proof (bpow_gt_0 radix2 (-1074)); lra).
  assert (u * Rabs y <= / 1000000 * (2 * exp (val x))) by (apply Rmult_le_compat; try lra; apply Rabs_pos).
  eapply Rle_trans; [apply (tri _ y)|]. lra.
Qed.

(** ** Where the integrand is evaluated *)
(** the nodes stay within [slack] of the interval, however wide or narrow it is *)
Theorem nodes64_near : forall a b i, fin a -> fin b -> Rabs (val a) <= bpow radix2 500 -> Rabs (val b) <= bpow radix2 500 -> (i < 100)%nat ->
  fin (node64 a b (nd64 i)) /\ Rmin (val a) (val b) - slack a b <= val (node64 a b (nd64 i)) <= Rmax (val a) (val b) + slack a b.
Proof.
  intros a b i Fa Fb Ba Bb Hi. destruct (node_R a b Fa Fb Ba Bb i Hi) as [A B]. split; [exact A|]. pose proof (exact_node_in a b i Hi) as C. apply Rabs_le_inv in B. lra.
Qed.
Print Assumptions nodes64_near.
Example nodes64_near_meets : fin one /\ Rabs (val one) <= bpow radix2 500 /\ (99 < 100)%nat.
Proof. split; [reflexivity|]. split; [|lia]. rewrite (proj2 one_R), Rabs_R1. change 1 with (bpow radix2 0). apply bpow_le. lia. Qed.
(** values outside the interval count: two integrands that agree on [0.5, 1.8] integrate to 1.3
    and to more than 10^10 *)
Theorem integrate64_outside_refuted : exists f g a b, (forall x, fle a x = true -> fle x b = true -> f x = g x) /\ flt a b = true /\
  fle (integrate64 f a b) (lit 13 (-3)) = true /\ flt (lit (10 ^ 10) 0) (integrate64 g a b) = true.
Proof.
  exists (fun _ => one), (fun x => if flt x chalf then lit 1 100 else one), chalf, (lit 8106479329266893 (-52)). split; [|repeat split; vm_compute; reflexivity].
  intros x Hx _. destruct (flt x chalf) eqn:E; [|reflexivity]. exfalso. unfold flt, fle, Bltb, Bleb, SpecFloat.SFltb, SpecFloat.SFleb in *.
  pose proof (Bcompare_swap 53 1024 x chalf) as SW. unfold Bcompare in SW. rewrite SW in Hx. destruct (SpecFloat.SFcompare (B2SF x) (B2SF chalf)) as [[]|]; cbn in *; discriminate.
Qed.
Print Assumptions integrate64_outside_refuted.
(** entries of the table written as numbers inside (-1, 1) are read as -1, so that the end points
    are nodes more often than written; an integrand that is infinite at an end point is replaced
    by zero there *)
Theorem integrate64_endpoints : exists i, (i < 100)%nat /\ -1 < nd i /\ 0 < wt i /\ val (nd64 i) = -1 /\ 0 < val (wt64 i) /\
  forall f, is_finite (f (lit (-1) 0)) = false -> feq (integrate64 (fun x => if feq x (lit (-1) 0) then f x else zero) (lit (-1) 0) one) zero = true.
Proof.
  exists 20%nat. assert (NV : val (nd64 20) = -1). { change (val (nd64 20)) with (val (entry (-9007199254740992, -53)%Z)). rewrite (proj2 (entry_R (-9007199254740992) (-53) ltac:(lia) ltac:(cbn; lia))). change (bpow radix2 (-53)) with (/ 9007199254740992). field. }
  destruct (tables64_nearest 20 ltac:(lia)) as (FW & _ & EW & _).
  assert (WP : flt zero (wt64 20) = true) by (vm_compute; reflexivity). apply (flt_R zero (wt64 20) eq_refl FW) in WP. change (val zero) with 0 in WP.
  assert (W0 : 0 < wt 20). { destruct (row_spec 20 ltac:(apply in_seq; lia)) as ([P|P] & _); [exact P|]. rewrite <- P in EW. rewrite Rmult_0_r, Rminus_0_r in EW. pose proof (Rabs_pos_eq (val (wt64 20)) ltac:(lra)). lra. }
  split; [lia|]. split; [unfold nd, dval; cbn [nth ABSCISSAE fst snd dec]|split; [exact W0|split; [exact NV|split; [exact WP|]]]].
  - apply Rmult_lt_reg_r with (IZR (10 ^ 26)); [apply IZR_lt; reflexivity|]. unfold Rdiv. rewrite Rmult_assoc, Rinv_l, Rmult_1_r by (apply IZR_neq; discriminate). rewrite <- mult_IZR. apply IZR_lt. reflexivity.
  - intros f Hf. assert (Z : forall t, (let out := (fun x => if feq x (lit (-1) 0) then f x else zero) (node64 (lit (-1) 0) one t) in if is_finite out then out else zero) = zero).
    { intros t. cbv beta zeta. destruct (feq (node64 (lit (-1) 0) one t) (lit (-1) 0)) eqn:E; [|reflexivity].
      assert (Q : node64 (lit (-1) 0) one t = lit (-1) 0).
      { set (y := node64 (lit (-1) 0) one t) in *. assert (Fm : fin (lit (-1) 0)) by reflexivity. destruct y as [s|s| |s m e Hb] eqn:Y; [destruct s; vm_compute in E; discriminate|destruct s; vm_compute in E; discriminate|vm_compute in E; discriminate|].
        assert (Fy : fin (B754_finite s m e Hb : f64)) by reflexivity. apply (feq_R _ _ Fy Fm) in E. apply B2R_inj; try reflexivity. exact E. }
      rewrite Q, Hf. reflexivity. }
    unfold integrate64. unfold tanhsinh64. assert (G : forall l z (k : f64 -> f64), (forall t, k t = zero) -> fold_left (fun integral i => fadd integral (fmul (wt64 i) (k (nd64 i)))) l z = fold_left (fun integral i => fadd integral (fmul (wt64 i) zero)) l z).
    { induction l as [|i l IH]; intros z k Hk; [reflexivity|]. cbn [fold_left]. rewrite Hk. apply IH, Hk. }
    rewrite (G _ _ _ Z). vm_compute. reflexivity.
Qed.
Print Assumptions integrate64_endpoints.
(** an interval wider than the largest double: not even zero integrates to zero *)
Theorem integrate64_overflow_refuted : exists a b, fin a /\ fin b /\ flt a b = true /\ is_nan (integrate64 (fun _ => zero) a b) = true.
Proof. exists (lit (- (2 ^ 53 - 1)) 971), (lit (2 ^ 53 - 1) 971). repeat split; vm_compute; reflexivity. Qed.
Print Assumptions integrate64_overflow_refuted.
(** an integrand that is nowhere finite integrates to zero *)
Theorem integrate64_nonfinite : forall (f : f64 -> f64) a b, (forall x, is_finite (f x) = false) -> fin (cscale a b) -> fin (integrate64 f a b) /\ val (integrate64 f a b) = 0.
Proof.
  intros f a b Hf Fc. assert (E : tanhsinh64 (fun t => let out := f (node64 a b t) in if is_finite out then out else zero) = tanhsinh64 (fun _ => zero)).
  { unfold tanhsinh64. generalize (seq 0 100). intros l. generalize zero at 2 4. induction l as [|i l IH]; intros z; [reflexivity|]. cbn [fold_left]. rewrite Hf. apply IH. }
  assert (I : integrate64 f a b = fmul (cscale a b) (tanhsinh64 (fun _ => zero))) by exact (f_equal (fmul (cscale a b)) E). rewrite I. assert (Z : exists s, tanhsinh64 (fun _ => zero) = B754_zero s) by (exists false; apply B2SF_inj; vm_compute; reflexivity). destruct Z as [s ->].
  destruct (fmul_R (cscale a b) (B754_zero s) Fc eq_refl) as [A B]; change (val (B754_zero s)) with 0; [rewrite Rmult_0_r, rnd_0, Rabs_R0; apply bpow_gt_0|]. split; [exact A|]. rewrite B. change (val (B754_zero s)) with 0. rewrite Rmult_0_r. apply rnd_0.
Qed.
Print Assumptions integrate64_nonfinite.
Example integrate64_nonfinite_meets : (forall x : f64, is_finite ((fun _ => nan) x) = false) /\ fin (cscale zero one). Proof. split; [intros; reflexivity|vm_compute; reflexivity]. Qed.
