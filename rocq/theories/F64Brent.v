(** C98: Brent's method and the safeguarded Newton iteration computed with binary64 arithmetic. *)
From Coq Require Import ZArith Reals Lra Lia List Bool Psatz Floats.SpecFloat.
From Flocq Require Import Core.Core IEEE754.BinarySingleNaN.
From Verif Require Import Res F64Model F64Base F64RootModel F64Root.
Import ListNotations.
Open Scope R_scope.

(** numbers that are not NaN in one order with the infinities at the ends *)
Definition ord (x : f64) : R := match x with B754_infinity s => if s then - fmaxR else fmaxR | _ => val x end.
Lemma ord_fin x : fin x -> ord x = val x. Proof. destruct x; intros H; try reflexivity; discriminate. Qed.
Lemma fmaxR_pos : 0 < fmaxR. Proof. apply bpow_gt_0. Qed.
Lemma flt_ord x y : is_nan x = false -> is_nan y = false -> (flt x y = true <-> ord x < ord y).
Proof.
  intros X Y. pose proof fmaxR_pos as M.
  assert (K : forall z, fin z -> - fmaxR < val z < fmaxR). { intros z _. pose proof (val_lt z) as V. apply Rabs_def2 in V. lra. }
  destruct (is_finite x) eqn:Fx, (is_finite y) eqn:Fy.
  - rewrite !ord_fin by assumption. apply flt_R; assumption.
  - destruct y as [ | s | | ]; try discriminate. rewrite (ord_fin x Fx). destruct (flt_inf x Fx) as (_ & A & B & _). unfold pinf, ninf in *. specialize (K x Fx). simpl ord. destruct s; [rewrite A | rewrite B]; split; intros; try discriminate; try reflexivity; lra.
  - destruct x as [ | s | | ]; try discriminate. rewrite (ord_fin y Fy). destruct (flt_inf y Fy) as (A & _ & _ & B). unfold pinf, ninf in *. specialize (K y Fy). simpl ord. destruct s; [rewrite A | rewrite B]; split; intros; try discriminate; try reflexivity; lra.
  - destruct x as [ | s | | ], y as [ | t | | ]; try discriminate. simpl ord. destruct s, t; split; intros; try discriminate; try reflexivity; lra.
Qed.
Lemma flt_not_nan x y : flt x y = true -> is_nan x = false /\ is_nan y = false.
Proof. destruct x as [[] | [] | | [] ? ? ?], y as [[] | [] | | [] ? ? ?]; intros H; try discriminate H; split; reflexivity. Qed.
Lemma fle_false_lt x y : is_nan x = false -> is_nan y = false -> fle x y = false -> flt y x = true.
Proof.
  intros X Y. destruct (is_finite x) eqn:Fx, (is_finite y) eqn:Fy.
  - intros H. apply flt_R; auto. apply not_true_iff_false in H. rewrite fle_R in H by assumption. lra.
  - destruct y as [ | [] | | ]; try discriminate; destruct x as [[] | [] | | [] ? ? ?]; try discriminate; intros H; try discriminate H; reflexivity.
  - destruct x as [ | [] | | ]; try discriminate; destruct y as [[] | [] | | [] ? ? ?]; try discriminate; intros H; try discriminate H; reflexivity.
  - destruct x as [ | [] | | ], y as [ | [] | | ]; try discriminate; intros H; try discriminate H; reflexivity.
Qed.
Lemma fabs_not_nan x : is_nan (fabs x) = is_nan x. Proof. destruct x; reflexivity. Qed.

(** subtracting a magnitude does not increase *)
Lemma fsub_abs_ord a b : is_nan (fsub a (fabs b)) = false -> ord (fsub a (fabs b)) <= ord a.
Proof.
  intros N. pose proof fmaxR_pos as M.
  destruct a as [s | s | | s m e h] eqn:Ea; [ | destruct b as [t | t | | t m' e' h']; destruct s; try discriminate N; simpl; lra | destruct b; discriminate N | ]; rewrite <- Ea in *;
  (assert (Fa : fin a) by (rewrite Ea; reflexivity)); clear Ea;
  (destruct (is_finite b) eqn:Fb;
   [ | destruct b as [ | t | | ]; try discriminate Fb; [ | destruct a; discriminate N]; pose proof (val_lt a) as V; apply Rabs_def2 in V; rewrite (ord_fin a Fa); destruct a; try discriminate Fa; simpl; simpl in V; lra ]);
  (assert (Fb' : fin (fabs b)) by (apply fabs_fin, Fb)); pose proof (Bminus_correct 53 1024 _ _ mode_NE a (fabs b) Fa Fb') as C; revert C; case Rlt_bool_spec; intros H0 C.
  1, 3: destruct (fsub_R a (fabs b) Fa Fb' H0) as [P Q]; rewrite (ord_fin _ P), (ord_fin a Fa), Q; apply rnd_le_fmt; [apply val_fmt | rewrite fabs_R; pose proof (Rabs_pos (val b)); lra].
  all: destruct C as [C D]; replace (Bsign (fabs b)) with false in D by (destruct b; reflexivity || discriminate); simpl in D; rewrite D in C; change (binary_overflow 53 1024 mode_NE true) with (S754_infinity true) in C;
    unfold fsub; destruct (Bminus mode_NE a (fabs b)) as [ | s' | | ]; try discriminate C; injection C as ->; rewrite (ord_fin a Fa); simpl; pose proof (val_lt a) as V; apply Rabs_def2 in V; lra.
Qed.

(** the acceptance test of an interpolation step, whatever overflows *)
Lemma accept_test p m3 q x e : fin p -> 0 <= val p -> fin m3 -> fin q -> fin x ->
  let min1 := fsub (fmul m3 q) (fabs (fmul x q)) in let min2 := fabs (fmul e q) in
  flt (fmul two p) (if flt min1 min2 then min1 else min2) = true -> 2 * val p < val m3 * val q.
Proof.
  intros Fp Pp Fm Fq Fx. cbv zeta. set (min1 := fsub _ _). set (min2 := fabs _). intros H.
  destruct (flt_not_nan _ _ H) as [N1 N2].
  assert (F2 : fin (fmul two p) /\ val (fmul two p) = 2 * val p).
  { pose proof (Bmult_correct 53 1024 _ _ mode_NE two p) as C. revert C; case Rlt_bool_spec; intros H0 C.
    - destruct (fmul_R two p (proj1 two_R) Fp H0) as [A B]. split. exact A. rewrite B, (proj2 two_R). apply rnd_id, fmt_2, val_fmt.
    - exfalso. change (Bsign two) with false in C. unfold fmul in *. destruct (Bmult mode_NE two p) as [ | s | | ]; try discriminate C. simpl in C. injection C as ->.
      destruct (Bsign p) eqn:Sp.
      + (* -0.0 does not overflow *) assert (Z : val p = 0). { destruct p as [s | s | | s m ee hh]; try discriminate; try reflexivity. simpl in Sp. subst s. pose proof (finite_sign true m ee hh). lra. }
        change (round radix2 (SpecFloat.fexp 53 1024) (round_mode mode_NE) (B2R two * B2R p)) with (rnd (val two * val p)) in H0. rewrite Z, Rmult_0_r, rnd_0, Rabs_R0 in H0. pose proof fmaxR_pos. unfold fmaxR in *. lra.
      + simpl xorb in H. destruct (if flt min1 min2 then min1 else min2) as [[] | [] | | [] ? ? ?]; discriminate H. }
  destruct F2 as [F2 V2].
  assert (Key : is_nan min1 = true \/ 2 * val p < ord min1).
  { destruct (is_nan min1) eqn:Nm. left; reflexivity. right. rewrite <- V2, <- (ord_fin _ F2). destruct (flt min1 min2) eqn:L.
    - apply flt_ord in H; auto.
    - apply flt_ord in H; auto. apply Rlt_le_trans with (1 := H). apply Rnot_lt_le. intros X. apply flt_ord in X; auto. congruence. }
  assert (A : fin (fmul m3 q) /\ val (fmul m3 q) = rnd (val m3 * val q) \/ (exists s, fmul m3 q = B754_infinity s /\ s = xorb (Bsign m3) (Bsign q) /\ fmaxR <= Rabs (rnd (val m3 * val q)))).
  { pose proof (Bmult_correct 53 1024 _ _ mode_NE m3 q) as C. revert C; case Rlt_bool_spec; intros H0 C. left. apply fmul_R; assumption.
    right. exists (xorb (Bsign m3) (Bsign q)). split; [ | split; [reflexivity | exact H0]]. apply B2SF_inj. exact C. }
  assert (Lt : forall r, 2 * val p < r -> r <= rnd (val m3 * val q) -> 2 * val p < val m3 * val q).
  { intros r R1 R2. apply Rnot_le_lt. intros X. assert (rnd (val m3 * val q) <= 2 * val p). { apply rnd_le_fmt. apply fmt_2, val_fmt. exact X. } lra. }
  assert (Inf : fmaxR <= Rabs (rnd (val m3 * val q)) -> xorb (Bsign m3) (Bsign q) = false -> 2 * val p < val m3 * val q).
  { intros O Sg. apply (Lt fmaxR). rewrite <- V2. pose proof (val_lt (fmul two p)) as V. apply Rabs_def2 in V. lra.
    assert (0 <= val m3 * val q).
    { destruct m3 as [s | s | | s m ee hh]; try discriminate. change (val (B754_zero s)) with 0. lra. destruct q as [t | t | | t m' e' h']; try discriminate. change (val (B754_zero t)) with 0. lra.
      pose proof (finite_sign s m ee hh). pose proof (finite_sign t m' e' h'). simpl in Sg. destruct s, t; try discriminate; nra. }
    rewrite Rabs_pos_eq in O. exact O. rewrite <- rnd_0. apply rnd_le, H0. }
  destruct A as [[Fa Va] | (s & Ea & Es & O)].
  - destruct Key as [Key | Key].
    + exfalso. unfold min1 in Key. rewrite fsub_not_nan in Key. discriminate. exact Fa. rewrite fabs_not_nan.
      pose proof (Bmult_correct 53 1024 _ _ mode_NE x q) as C. revert C; case Rlt_bool_spec; intros H0 C. apply fin_not_nan. apply fmul_R; assumption. apply (over_not_nan _ _ C).
    + assert (ord min1 <= ord (fmul m3 q)). { apply fsub_abs_ord. fold min1. destruct min1; try reflexivity. exfalso. simpl ord in Key. change (val nan) with 0 in Key. change (val B754_nan) with 0 in Key. lra. }
      rewrite (ord_fin _ Fa) in H0. apply (Lt (val (fmul m3 q))). lra. rewrite Va. lra.
  - destruct s. 2: { apply Inf. exact O. symmetry. exact Es. }
    exfalso. destruct Key as [Key | Key].
    + unfold min1 in Key. rewrite Ea in Key. assert (N : is_nan (fmul x q) = false).
      { pose proof (Bmult_correct 53 1024 _ _ mode_NE x q) as C. revert C; case Rlt_bool_spec; intros H0 C. apply fin_not_nan. apply fmul_R; assumption. apply (over_not_nan _ _ C). }
      destruct (fmul x q); try discriminate.
    + assert (N : is_nan min1 = false). { destruct min1; try reflexivity. exfalso. simpl ord in Key. change (val B754_nan) with 0 in Key. lra. }
      pose proof (fsub_abs_ord (fmul m3 q) (fmul x q) N) as B. fold min1 in B. rewrite Ea in B. simpl ord in B. pose proof fmaxR_pos. lra.
Qed.

(** ** every iterate of Brent's method lies between the two ends it interpolates *)
Definition btw (a b z : R) : Prop := Rmin a b <= z <= Rmax a b.
Lemma u_tiny : u <= / 1000. Proof. unfold u. apply Rinv_le_contravar. lra. apply IZR_le. discriminate. Qed.
Lemma eta_tiny : eta <= / 1000 * bpow radix2 (-60).
Proof. unfold eta. assert (bpow radix2 (-1074) <= bpow radix2 (-10 + -60)) by (apply bpow_le; lia). rewrite bpow_plus in H. change (bpow radix2 (-10)) with (/ 1024) in H. pose proof (bpow_gt_0 radix2 (-60)). lra. Qed.
Lemma rnd_mag x : Rabs (rnd x) <= Rabs x * (1 + u) + eta.
Proof. destruct (rnd_err x) as (e & h & E & H & ->). eapply Rle_trans. apply Rabs_triang. rewrite Rabs_mult. apply Rplus_le_compat. 2: exact H.
  apply Rmult_le_compat_l. apply Rabs_pos. eapply Rle_trans. apply Rabs_triang. rewrite Rabs_R1. lra. Qed.
Lemma rnd_sign x : (0 <= x -> 0 <= rnd x) /\ (x <= 0 -> rnd x <= 0).
Proof. split; intros H; rewrite <- rnd_0; apply rnd_le, H. Qed.
(** [d] points from [r] to [x] and does not reach beyond it *)
Definition towards (r x d : R) : Prop := Rabs d <= Rabs (x - r) /\ 0 <= d * (x - r).
Lemma towards_btw r x d : towards r x d -> btw r x (r + d).
Proof. intros [A B]. unfold btw, Rmin, Rmax. unfold Rabs in A. destruct (Rle_dec r x), (Rcase_abs d), (Rcase_abs (x - r)); split; try lra; try nra. Qed.
Lemma add_towards r d x : fin r -> fin x -> fin d -> towards (val r) (val x) (val d) -> fin (fadd r d) /\ btw (val r) (val x) (val (fadd r d)).
Proof.
  intros Fr Fx Fd T. apply towards_btw in T. unfold btw in *.
  assert (M1 : fmt (Rmin (val r) (val x))) by (unfold Rmin; destruct (Rle_dec (val r) (val x)); apply val_fmt).
  assert (M2 : fmt (Rmax (val r) (val x))) by (unfold Rmax; destruct (Rle_dec (val r) (val x)); apply val_fmt).
  assert (B : Rmin (val r) (val x) <= rnd (val r + val d) <= Rmax (val r) (val x)) by (split; [apply rnd_ge | apply rnd_le_fmt]; tauto).
  destruct (fadd_R r d Fr Fd) as [A E].
  - apply (between_lt (Rmin (val r) (val x)) (Rmax (val r) (val x))); [ | | exact B]; unfold Rmin, Rmax; destruct (Rle_dec (val r) (val x)); apply val_lt.
  - rewrite E. split. exact A. exact B.
Qed.

Section Step.
  Variables root xm acc : f64.
  Hypothesis (Fr : fin root) (Fx : fin xm) (Fa : fin acc).
  Hypothesis (Br : Rabs (val root) <= bpow radix2 1000) (Bx : Rabs (val xm) <= bpow radix2 1000).
  Hypothesis (La : fle eps64 acc = true) (Ba : val acc <= bpow radix2 1000).
  Let w := val xm - val root.
  Let x_acc1 := fadd (fmul (fmul two eps64) (fabs root)) (fmul half64 acc).
  Let x_mid := fmul half64 (fsub xm root).

  Lemma big_lt e x : (-1074 <= e < 1024)%Z -> Rabs x <= bpow radix2 e -> Rabs (rnd x) <= bpow radix2 e /\ Rabs (rnd x) < fmaxR.
  Proof. intros E X. assert (Rabs (rnd x) <= bpow radix2 e) by (apply rnd_abs_le; [lia | exact X]). split. exact H. eapply Rle_lt_trans. exact H. apply bpow_lt. lia. Qed.

  Lemma w_bound : Rabs w <= bpow radix2 1001.
  Proof. unfold w, Rminus. eapply Rle_trans. apply Rabs_triang. rewrite Rabs_Ropp. change 1001%Z with (1 + 1000)%Z. rewrite bpow_plus. change (bpow radix2 1) with 2. lra. Qed.
  Lemma diff_R : fin (fsub xm root) /\ val (fsub xm root) = rnd w.
  Proof. apply fsub_R; try assumption. apply (big_lt 1001). lia. exact w_bound. Qed.
  Lemma mid_R : fin x_mid /\ val x_mid = rnd (/ 2 * rnd w).
  Proof. destruct diff_R as [A B]. destruct half64_R as [C D]. unfold x_mid. rewrite <- B, <- D. apply fmul_R; try assumption. rewrite B, D. apply (big_lt 1001). lia.
    rewrite Rabs_mult, Rabs_pos_eq by lra. pose proof (proj1 (big_lt 1001 w ltac:(lia) w_bound)). pose proof (Rabs_pos (rnd w)). lra. Qed.
  Lemma acc_ge : bpow radix2 (-52) <= val acc.
  Proof. apply fle_R in La; [ | apply eps64_R | exact Fa]. rewrite (proj2 eps64_R) in La. exact La. Qed.
  Lemma twoeps_R : fin (fmul two eps64) /\ val (fmul two eps64) = bpow radix2 (-51).
  Proof. destruct (val_SF (fmul two eps64) false 4503599627370496 (-103)) as [A B]. vm_compute. reflexivity. split. exact A. rewrite B. unfold F2R. simpl Fnum. simpl Fexp.
    change (bpow radix2 (-103)) with (/ IZR (2 ^ 103)). change (bpow radix2 (-51)) with (/ IZR (2 ^ 51)). change (2 ^ 103)%Z with (4503599627370496 * 2 ^ 51)%Z. rewrite mult_IZR. field; try split; apply not_0_IZR; discriminate. Qed.
  Lemma acc1_R : fin x_acc1 /\ val x_acc1 = rnd (rnd (bpow radix2 (-51) * Rabs (val root)) + rnd (/ 2 * val acc)) /\ bpow radix2 (-53) <= val x_acc1.
  Proof.
    destruct twoeps_R as [A B]. destruct half64_R as [C D]. pose proof acc_ge as G. pose proof (bpow_gt_0 radix2 (-52)) as P52. assert (Fr' : fin (fabs root)) by (apply fabs_fin, Fr).
    assert (E1 : Rabs (bpow radix2 (-51) * Rabs (val root)) <= bpow radix2 1000). { rewrite Rabs_mult, Rabs_Rabsolu, Rabs_pos_eq by apply bpow_ge_0. assert (bpow radix2 (-51) <= 1) by (change 1 with (bpow radix2 0); apply bpow_le; lia). pose proof (bpow_gt_0 radix2 (-51)). pose proof (Rabs_pos (val root)). nra. }
    assert (E2 : Rabs (/ 2 * val acc) <= bpow radix2 1000). { rewrite Rabs_pos_eq by lra. lra. }
    destruct (fmul_R _ (fabs root) A Fr') as [P Q]. { rewrite B, fabs_R. apply (big_lt 1000). lia. exact E1. } rewrite B, fabs_R in Q.
    destruct (fmul_R half64 acc C Fa) as [R S]. { rewrite D. apply (big_lt 1000). lia. exact E2. } rewrite D in S.
    pose proof (proj1 (big_lt 1000 _ ltac:(lia) E1)) as T1. pose proof (proj1 (big_lt 1000 _ ltac:(lia) E2)) as T2.
    destruct (fadd_R _ _ P R) as [X Y]. { rewrite Q, S. apply (big_lt 1001). lia. eapply Rle_trans. apply Rabs_triang. change 1001%Z with (1 + 1000)%Z. rewrite bpow_plus. change (bpow radix2 1) with 2. lra. }
    rewrite Q, S in Y. split. exact X. split. exact Y. unfold x_acc1. rewrite Y. apply rnd_ge. apply fmt_bpow. lia.
    assert (0 <= rnd (bpow radix2 (-51) * Rabs (val root))). { apply rnd_sign. apply Rmult_le_pos. apply bpow_ge_0. apply Rabs_pos. }
    assert (bpow radix2 (-53) <= rnd (/ 2 * val acc)). { apply rnd_ge. apply fmt_bpow. lia. replace (bpow radix2 (-53)) with (/ 2 * bpow radix2 (-52)). lra. change (-52)%Z with (1 + -53)%Z. rewrite bpow_plus. change (bpow radix2 1) with 2. field. }
    lra.
  Qed.

  Hypothesis NS : fle (fabs x_mid) x_acc1 = false.
  Lemma mid_big : val x_acc1 < Rabs (val x_mid).
  Proof. apply not_true_iff_false in NS. rewrite fle_R in NS; [ | apply fabs_fin, mid_R | apply acc1_R]. rewrite fabs_R in NS. lra. Qed.
  Lemma w_big : bpow radix2 (-53) <= Rabs w.
  Proof.
    pose proof mid_big as H. destruct acc1_R as (_ & _ & G). rewrite (proj2 mid_R) in H. apply Rnot_lt_le. intros L.
    assert (Rabs (rnd w) <= bpow radix2 (-53)) by (apply rnd_abs_le; [lia | lra]).
    assert (Rabs (rnd (/ 2 * rnd w)) <= bpow radix2 (-53)). { apply rnd_abs_le. lia. rewrite Rabs_mult, Rabs_pos_eq by lra. pose proof (Rabs_pos (rnd w)). lra. } lra.
  Qed.
  Lemma mid_mag : Rabs (val x_mid) <= 51 / 100 * Rabs w.
  Proof.
    rewrite (proj2 mid_R). eapply Rle_trans. apply rnd_mag. rewrite Rabs_mult, Rabs_pos_eq by lra. pose proof (rnd_mag w) as A. pose proof u_pos. pose proof u_tiny. pose proof eta_pos. pose proof eta_tiny.
    pose proof w_big as W. assert (bpow radix2 (-60) <= bpow radix2 (-53)) by (apply bpow_le; lia). set (W' := Rabs w) in *. assert (0 < W') by (pose proof (bpow_gt_0 radix2 (-53)); lra).
    assert (eta <= / 1000 * W') by lra. assert (Rabs (rnd w) <= 1002 / 1000 * W') by nra. pose proof (Rabs_pos (rnd w)). nra.
  Qed.
  Lemma mid_dir : 0 <= val x_mid * w.
  Proof.
    rewrite (proj2 mid_R). destruct (Rle_or_lt 0 w) as [L | L].
    - apply Rmult_le_pos; [ | exact L]. apply rnd_sign. apply Rmult_le_pos. lra. apply rnd_sign, L.
    - pose proof (proj2 (rnd_sign w) ltac:(lra)) as A. pose proof (proj2 (rnd_sign (/ 2 * rnd w)) ltac:(lra)). nra.
  Qed.
  Lemma mid_towards : towards (val root) (val xm) (val x_mid).
  Proof. split. fold w. pose proof mid_mag. pose proof (Rabs_pos w). lra. fold w. apply mid_dir. Qed.

  Lemma step_towards froot d e b d' e' : brent_step64 root froot x_mid x_acc1 d e b = (d', e') -> flt x_acc1 (fabs d') = true ->
    fin d' /\ towards (val root) (val xm) (val d').
  Proof.
    destruct mid_R as [Fm Vm]. destruct acc1_R as (Fc & _ & Gc). pose proof (bpow_gt_0 radix2 (-53)) as B53.
    assert (Def : (x_mid, x_mid) = (d', e') -> fin d' /\ towards (val root) (val xm) (val d')). { intros E. injection E as <- <-. split. exact Fm. exact mid_towards. }
    unfold brent_step64. destruct (_ && _); [ | intros E _; exact (Def E)].
    match goal with |- (let '(p, q) := ?X in _) = _ -> _ => destruct X as [p0 q0] end. cbv zeta.
    set (q := if flt zero p0 then fneg q0 else q0). set (p := fabs p0).
    match goal with |- (if ?c then _ else _) = _ -> _ => destruct c eqn:T end; [ | intros E _; exact (Def E)].
    intros E Big. injection E as <- <-.
    assert (Fp : fin p).
    { unfold p in *. destruct p0 as [s | s | | s m ee hh]; try reflexivity; exfalso.
      - change (fmul two (fabs (B754_infinity s))) with pinf in T. match type of T with flt _ ?t = _ => destruct t as [[] | [] | | [] ? ? ?]; discriminate T end.
      - destruct (flt_not_nan _ _ T) as [A _]. discriminate A. }
    assert (Pp : 0 <= val p) by (unfold p; rewrite fabs_R; apply Rabs_pos). clearbody p q.
    assert (Fq : fin q).
    { destruct q as [s | s | | s m ee hh]; try reflexivity; exfalso.
      - assert (Z : val (fdiv p (B754_infinity s)) = 0 /\ fin (fdiv p (B754_infinity s))) by (destruct p; try discriminate Fp; split; reflexivity).
        apply flt_R in Big; [ | exact Fc | apply fabs_fin, Z]. rewrite fabs_R, (proj1 Z), Rabs_R0 in Big. lra.
      - destruct (flt_not_nan _ _ T) as [_ A]. replace (fabs (fmul e B754_nan)) with nan in A by (destruct e; reflexivity).
        match type of A with is_nan (if flt ?a nan then _ else _) = _ => replace (flt a nan) with false in A by (destruct a as [[] | [] | | [] ? ? ?]; reflexivity) end. discriminate A. }
    pose proof mid_mag as MM. pose proof w_big as WB. pose proof w_bound as WU. pose proof u_pos as U. pose proof u_tiny as UT. pose proof eta_pos as EP. pose proof eta_tiny as ET.
    assert (bpow radix2 (-60) <= bpow radix2 (-53)) by (apply bpow_le; lia). pose proof (Rabs_pos (val x_mid)) as MP. set (W := Rabs w) in *.
    assert (EW : eta <= / 1000 * W) by lra.
    destruct (int_lit 3 ltac:(cbn; lia)) as [F3 V3]. 
    assert (M3 : fin (fmul (lit 3 0) x_mid) /\ val (fmul (lit 3 0) x_mid) = rnd (3 * val x_mid)).
    { rewrite <- V3. apply fmul_R; try assumption. rewrite V3. apply (big_lt 1003). lia. rewrite Rabs_mult, Rabs_pos_eq by lra. change 1003%Z with (2 + 1001)%Z. rewrite bpow_plus. change (bpow radix2 2) with 4. lra. }
    destruct M3 as [F3m V3m]. pose proof (accept_test p _ q x_acc1 e Fp Pp F3m Fq Fc T) as K. rewrite V3m in K.
    assert (R3 : Rabs (rnd (3 * val x_mid)) <= 16 / 10 * W). { eapply Rle_trans. apply rnd_mag. rewrite Rabs_mult, (Rabs_pos_eq 3) by lra. nra. }
    set (m3 := rnd (3 * val x_mid)) in *.
    assert (Q0 : val q <> 0) by (intros Z; rewrite Z in K; lra).
    assert (Mag : Rabs (val p / val q) <= Rabs m3 / 2).
    { unfold Rdiv at 1. rewrite Rabs_mult, Rabs_inv, (Rabs_pos_eq (val p)) by exact Pp. assert (Qp : 0 < Rabs (val q)) by (apply Rabs_pos_lt, Q0).
      apply Rmult_le_reg_r with (Rabs (val q)). exact Qp. rewrite Rmult_assoc, Rinv_l, Rmult_1_r by lra. pose proof (Rle_abs (m3 * val q)) as X. rewrite Rabs_mult in X. lra. }
    assert (Dm : Rabs (rnd (val p / val q)) <= W). { eapply Rle_trans. apply rnd_mag. nra. }
    destruct (fdiv_R p q Fp Q0) as [Fd Vd]. { eapply Rle_lt_trans. exact Dm. eapply Rle_lt_trans. exact WU. apply bpow_lt. lia. }
    split. exact Fd. split. rewrite Vd. exact Dm. fold w. rewrite Vd.
    assert (MS : 0 <= m3 * w).
    { pose proof mid_dir as MD. unfold m3. destruct (Rle_or_lt 0 w) as [L | L].
      - assert (w <> 0) by (intros Z; unfold W in WB; rewrite Z, Rabs_R0 in WB; lra). apply Rmult_le_pos; [apply rnd_sign; nra | exact L].
      - pose proof (proj2 (rnd_sign (3 * val x_mid)) ltac:(nra)). nra. }
    destruct (Rle_or_lt 0 (val q)) as [Lq | Lq].
    - assert (0 < m3) by nra. assert (0 <= w) by nra. apply Rmult_le_pos; [ | assumption]. apply rnd_sign. apply Rmult_le_pos. exact Pp. apply Rlt_le, Rinv_0_lt_compat. lra.
    - assert (m3 < 0) by nra. assert (w <= 0) by nra. assert (rnd (val p / val q) <= 0). { apply rnd_sign. unfold Rdiv. pose proof (Rinv_lt_0_compat _ Lq). nra. } nra.
  Qed.

  Lemma nrsign_towards : fin (nrsign64 x_acc1 x_mid) /\ towards (val root) (val xm) (val (nrsign64 x_acc1 x_mid)).
  Proof.
    destruct acc1_R as (Fc & _ & Gc). destruct mid_R as [Fm _]. pose proof mid_big as MB. pose proof mid_mag as MM. pose proof mid_dir as MD. pose proof (bpow_gt_0 radix2 (-53)) as B53. pose proof (Rabs_pos w) as Wp.
    unfold nrsign64. replace (fle zero x_acc1) with true. 2:{ symmetry. apply fle_R. reflexivity. exact Fc. change (val zero) with 0. lra. }
    destruct (fle zero x_mid) eqn:S.
    - split. exact Fc. apply (fle_R zero x_mid eq_refl Fm) in S. change (val zero) with 0 in S. rewrite Rabs_pos_eq in MB by exact S. rewrite (Rabs_pos_eq (val x_mid)) in MM by exact S.
      split; fold w. rewrite Rabs_pos_eq by lra. lra. assert (0 <= w) by nra. nra.
    - split. apply fneg_fin, Fc. apply not_true_iff_false in S. rewrite (fle_R zero x_mid eq_refl Fm) in S. change (val zero) with 0 in S. rewrite Rabs_left in MB by lra. rewrite (Rabs_left (val x_mid)) in MM by lra.
      split; fold w; rewrite fneg_R. rewrite Rabs_Ropp, Rabs_pos_eq by lra. lra. assert (w <= 0) by nra. nra.
  Qed.

  (** the next iterate *)
  Lemma brent_next froot d e b d' e' : brent_step64 root froot x_mid x_acc1 d e b = (d', e') ->
    let root' := if flt x_acc1 (fabs d') then fadd root d' else fadd root (nrsign64 x_acc1 x_mid) in fin root' /\ btw (val root) (val xm) (val root').
  Proof.
    intros H. cbv zeta. destruct (flt x_acc1 (fabs d')) eqn:L.
    - destruct (step_towards _ _ _ _ _ _ H L) as [Fd T]. apply add_towards; assumption.
    - destruct nrsign_towards as [Fd T]. apply add_towards; assumption.
  Qed.
End Step.

(** ** the loop *)
Section Hull.
  Variables lo hi : R.
  Hypothesis (Bl : - bpow radix2 1000 <= lo) (Bh : hi <= bpow radix2 1000).
  Definition hull (lo hi : R) (x : f64) : Prop := fin x /\ lo <= val x <= hi.
  Lemma hull_mag x : hull lo hi x -> Rabs (val x) <= bpow radix2 1000. Proof. intros [_ H]. apply Rabs_le. lra. Qed.
  Lemma hull_btw x y z : hull lo hi x -> hull lo hi y -> fin z -> btw (val x) (val y) (val z) -> hull lo hi z.
  Proof. intros [_ X] [_ Y] Z B. split. exact Z. unfold btw, Rmin, Rmax in B. destruct (Rle_dec (val x) (val y)); lra. Qed.

  Lemma brent_loop_hull f f' acc : fin acc -> fle eps64 acc = true -> val acc <= bpow radix2 1000 -> (forall x, hull lo hi x -> f x = f' x) ->
    forall fuel count root fr d e b, hull lo hi root -> hull lo hi (xmin b) -> hull lo hi (xmax b) ->
    brent_loop64 fuel f acc count root fr d e b = brent_loop64 fuel f' acc count root fr d e b /\
    forall v, brent_loop64 fuel f acc count root fr d e b = Ret v -> v = zero \/ hull lo hi v.
  Proof.
    intros Fa La Ba Ag. induction fuel as [| fuel IH]; intros count root fr d e b Hr Hm HM. split. reflexivity. discriminate.
    cbn [brent_loop64]. unfold max_iter64. destruct (count <=? 1000)%Z; [ | split; [reflexivity | intros v E; injection E as <-; left; reflexivity]]. cbv zeta.
    set (same := flt zero fr && flt zero (ymax b) || flt fr zero && flt (ymax b) zero).
    set (b1 := if same then {| xmin := xmin b; xmax := xmin b; ymin := ymin b; ymax := ymin b |} else b).
    assert (H1 : hull lo hi (xmin b1) /\ hull lo hi (xmax b1)) by (unfold b1; destruct same; split; assumption). clearbody b1.
    set (e1 := if same then fsub root (xmin b) else e). set (d1 := if same then e1 else d). clearbody d1. clearbody e1. clear same Hm HM b.
    assert (Go : forall r fr' b', hull lo hi r -> hull lo hi (xmin b') -> hull lo hi (xmax b') ->
      let go g := (if fle (fabs (fmul half64 (fsub (xmax b') r))) (fadd (fmul (fmul two eps64) (fabs r)) (fmul half64 acc)) || close64 fr' zero then Ret r
        else let '(d2, e2) := brent_step64 r fr' (fmul half64 (fsub (xmax b') r)) (fadd (fmul (fmul two eps64) (fabs r)) (fmul half64 acc)) d1 e1 b' in
          let root' := if flt (fadd (fmul (fmul two eps64) (fabs r)) (fmul half64 acc)) (fabs d2) then fadd r d2 else fadd r (nrsign64 (fadd (fmul (fmul two eps64) (fabs r)) (fmul half64 acc)) (fmul half64 (fsub (xmax b') r))) in
          brent_loop64 fuel g acc (count + 1) root' (g root') d2 e2 (Bracket64 r (xmax b') fr' (ymax b'))) in
      go f = go f' /\ forall v, go f = Ret v -> v = zero \/ hull lo hi v).
    { intros r fr' b' Hr' Hm' HM'. cbv zeta. destruct (fle (fabs _) _) eqn:NS. split. reflexivity. intros v E. injection E as <-. right. exact Hr'.
      destruct (close64 fr' zero). split. reflexivity. intros v E. injection E as <-. right. exact Hr'. simpl orb. cbv iota.
      destruct (brent_step64 _ _ _ _ _ _ _) as [d2 e2] eqn:St.
      pose proof (brent_next r (xmax b') acc (proj1 Hr') (proj1 HM') Fa (hull_mag _ Hr') (hull_mag _ HM') La Ba NS fr' d1 e1 b' d2 e2 St) as [Fn Bn].
      set (root' := if flt _ _ then _ else _) in *. assert (Hn : hull lo hi root') by (apply (hull_btw r (xmax b')); assumption).
      rewrite <- (Ag root' Hn). apply IH; assumption. }
    destruct (flt (fabs (ymax b1)) (fabs fr)).
    - apply (Go (xmax b1) (ymax b1) (Bracket64 root root fr fr)); simpl; tauto.
    - apply (Go root fr b1); tauto.
  Qed.
End Hull.

(** With ends of magnitude at most 2^1000, Brent's method never evaluates the objective outside the
    bracket, whatever values it returns: two objectives that agree on the bracket give the same
    result, and the result is in the bracket or the fallback 0.0. *)
Theorem brent64_in_bracket fuel f f' acc b count lo hi : - bpow radix2 1000 <= lo -> hi <= bpow radix2 1000 -> hull lo hi (xmin b) -> hull lo hi (xmax b) ->
  fin acc -> fle eps64 acc = true -> val acc <= bpow radix2 1000 -> (forall x, hull lo hi x -> f x = f' x) ->
  brent_impl64 fuel f acc b count = brent_impl64 fuel f' acc b count /\
  forall v, brent_impl64 fuel f acc b count = Ret v -> v = zero \/ hull lo hi v.
Proof. intros. apply (brent_loop_hull lo hi); assumption. Qed.
Print Assumptions brent64_in_bracket.

(** the same for the public function, with the enforced interval *)
Lemma solve_loop64_ext f f' impl impl' dt acc : good_interval dt -> enforced64 dt = true -> (forall x, in64 dt x -> f x = f' x) ->
  (forall b c, in64 dt (xmin b) -> in64 dt (xmax b) -> impl acc b c = impl' acc b c) ->
  forall fuel count flip b, in64 dt (xmin b) -> in64 dt (xmax b) ->
  solve_loop64 fuel f impl dt acc count flip b = solve_loop64 fuel f' impl' dt acc count flip b.
Proof.
  intros G En Ag Ai. induction fuel as [| fuel IH]; intros count flip b Im IM. reflexivity. cbn [solve_loop64]. cbv zeta.
  rewrite <- !Ag by (apply grow_in; assumption).
  destruct (count <=? max_iter64)%Z; [ | reflexivity]. destruct (fle _ _). destruct (close64 _ _); [reflexivity | ]. destruct (close64 _ _); [reflexivity | ]. apply Ai; assumption.
  destruct (flt _ _). apply IH; [apply grow_in; assumption | exact IM].
  destruct (flt _ _). apply IH; [exact Im | apply grow_in; assumption].
  destruct flip; apply IH; simpl; try assumption; apply grow_in; assumption.
Qed.

Lemma acc_choice a : flt zero a = true -> fle eps64 (fmax a eps64) = true /\ (fin a -> fin (fmax a eps64) /\ val (fmax a eps64) = Rmax (val a) (val eps64)).
Proof.
  intros A. unfold fmax. destruct a as [s | s | | s m e h] eqn:Ea; simpl is_nan; cbv iota.
  - destruct s; discriminate A.
  - destruct s; [discriminate A | ]. split; [reflexivity | discriminate].
  - discriminate A.
  - change (is_nan eps64) with false. cbv iota. rewrite <- Ea in *. assert (Fa : fin a) by (rewrite Ea; reflexivity). clear Ea. pose proof eps64_R as [Fe _].
    destruct (flt a eps64) eqn:L.
    + split. reflexivity. intros _. split. exact Fe. apply flt_R in L; auto. rewrite Rmax_right; lra.
    + apply not_true_iff_false in L. rewrite flt_R in L by auto. split. apply fle_R; auto. lra. intros _. split. exact Fa. rewrite Rmax_left; lra.
Qed.

(** Brent's method with an enforced interval evaluates the objective only inside the interval and
    returns a point of it, or the fallback 0.0.  Compare [bisection64_interval_refuted]. *)
Theorem brent64_interval fuel f f' guess dt : good_interval dt -> enforced64 dt = true -> in64 dt guess -> is_nan (stepsize64 dt) = false ->
  - bpow radix2 1000 <= val (lo64 dt) -> val (hi64 dt) <= bpow radix2 1000 -> fin (accuracy64 dt) -> val (accuracy64 dt) <= bpow radix2 1000 ->
  (forall x, in64 dt x -> f x = f' x) ->
  brent64 fuel f guess dt = brent64 fuel f' guess dt /\ forall v, brent64 fuel f guess dt = Ret v -> v = zero \/ in64 dt v.
Proof.
  intros G En I Ns Bl Bh Fa Ba Ag.
  assert (Hull : forall x, in64 dt x -> hull (val (lo64 dt)) (val (hi64 dt)) x) by (intros x X; exact (X En)).
  assert (Ag' : forall x, hull (val (lo64 dt)) (val (hi64 dt)) x -> f x = f' x) by (intros x X; apply Ag; intros _; exact X).
  assert (St : forall x, (x = fsub guess (stepsize64 dt) \/ x = fadd guess (stepsize64 dt)) -> in64 dt (enforce64 dt x)).
  { intros x X E. apply enforce64_in; [exact G | | exact E]. destruct (I E) as [Fg _]. destruct X as [-> | ->]; [apply fsub_not_nan | apply fadd_not_nan]; assumption. }
  assert (AccOk : flt zero (accuracy64 dt) = true -> fin (fmax (accuracy64 dt) eps64) /\ fle eps64 (fmax (accuracy64 dt) eps64) = true /\ val (fmax (accuracy64 dt) eps64) <= bpow radix2 1000).
  { intros A. destruct (acc_choice _ A) as [P Q]. destruct (Q Fa) as [Q1 Q2]. split. exact Q1. split. exact P. rewrite Q2. apply Rmax_lub. exact Ba. rewrite (proj2 eps64_R). apply bpow_le. lia. }
  split.
  - unfold brent64, solve64. destruct (flt zero (accuracy64 dt)) eqn:A; [ | reflexivity]. simpl assertb. cbv zeta. destruct (AccOk eq_refl) as (A1 & A2 & A3).
    rewrite <- !Ag by (try exact I; apply St; auto). destruct (close64 (f guess) zero); [reflexivity | ].
    apply solve_loop64_ext; try assumption.
    + intros b c X Y. apply (brent64_in_bracket fuel f f' _ b c (val (lo64 dt)) (val (hi64 dt))); auto.
    + destruct (flt zero (f guess)); [apply St; auto | exact I].
    + destruct (flt zero (f guess)); [exact I | apply St; auto].
  - intros v H. assert (Pan : flt zero (accuracy64 dt) = true). { unfold brent64, solve64 in H. destruct (flt zero (accuracy64 dt)); [reflexivity | discriminate]. }
    destruct (AccOk Pan) as (A1 & A2 & A3).
    destruct (solve64_cases fuel f _ guess dt v G I Ns H) as [Z | [Z | (acc & b & c & _ & X & Y & _ & Le & Ch & K)]]. left; exact Z. right; apply Z.
    assert (P : fin acc /\ val acc <= bpow radix2 1000). { destruct Ch as [-> | ->]; [split; [apply eps64_R | rewrite (proj2 eps64_R); apply bpow_le; lia] | split; assumption]. }
    destruct (proj2 (brent64_in_bracket fuel f f acc b c _ _ Bl Bh (Hull _ X) (Hull _ Y) (proj1 P) Le (proj2 P) (fun x _ => eq_refl)) v K) as [Z | Z]. left; exact Z. right. intros _. exact Z.
Qed.
Print Assumptions brent64_interval.
Example brent64_interval_case : let dt := RData64 one (lit 1 (-30)) zero (lit 2 0) true in
  good_interval dt /\ in64 dt (lit 1 (-1)) /\ match brent64 1000 (fun x => fsub (fmul x x) one) (lit 1 (-1)) dt with Ret v => flt (fabs (fsub v one)) (lit 1 (-30)) | _ => false end = true.
Proof.
  cbv zeta. split; [ | split].
  - intros _. split. reflexivity. split. apply two_R. cbn [lo64 hi64]. change (lit 2 0) with two. rewrite (proj2 two_R). change (val zero) with 0. lra.
  - intros _. change (lit 1 (-1)) with half64. split. apply half64_R. cbn [lo64 hi64]. change (lit 2 0) with two. rewrite (proj2 two_R), (proj2 half64_R). change (val zero) with 0. lra.
  - vm_compute. reflexivity.
Qed.

(** ** what a value returned by Brent's method means *)
Definition opp64 (a b : f64) : Prop := flt zero a && flt zero b = false /\ flt a zero && flt b zero = false.
Lemma opp64_sym a b : opp64 a b -> opp64 b a. Proof. unfold opp64. rewrite (andb_comm (flt zero b)), (andb_comm (flt b zero)). tauto. Qed.
(** values that are numbers: one is at most zero, the other at least zero *)
Lemma opp64_numbers a b : is_nan a = false -> is_nan b = false -> opp64 a b -> (fle a zero = true /\ fle zero b = true) \/ (fle zero a = true /\ fle b zero = true).
Proof. intros A B [P Q]. destruct a as [[] | [] | | [] ? ? ?], b as [[] | [] | | [] ? ? ?]; try discriminate; cbn; auto. Qed.

Lemma brent_loop64_outcome f acc lo hi : - bpow radix2 1000 <= lo -> hi <= bpow radix2 1000 -> fin acc -> fle eps64 acc = true -> val acc <= bpow radix2 1000 ->
  forall fuel count root d e b v,
  hull lo hi root -> hull lo hi (xmin b) -> hull lo hi (xmax b) ->
  brent_loop64 fuel f acc count root (f root) d e b = Ret v ->
  ymin b = f (xmin b) -> ymax b = f (xmax b) -> opp64 (ymin b) (ymax b) ->
  v = zero \/ (fin (f v) /\ Rabs (val (f v)) < tiny64) \/
  exists z, hull lo hi z /\ hull lo hi v /\ opp64 (f v) (f z) /\ fle (fabs (fmul half64 (fsub z v))) (fadd (fmul (fmul two eps64) (fabs v)) (fmul half64 acc)) = true.
Proof.
  intros Bl Bh Fa La Ba. induction fuel as [| fuel IH]; intros count root d e b v Hr Hm HM H Em EM Sg; [discriminate | ].
  cbn [brent_loop64] in H. destruct (count <=? max_iter64)%Z; [ | injection H as <-; left; reflexivity].
  cbv zeta in H.
  set (same := (flt zero (f root) && flt zero (ymax b)) || (flt (f root) zero && flt (ymax b) zero)) in *.
  set (b1 := if same then Bracket64 (xmin b) (xmin b) (ymin b) (ymin b) else b) in *.
  assert (B1 : ymax b1 = f (xmax b1) /\ opp64 (f root) (ymax b1)).
  { subst b1. destruct same eqn:S; subst same.
    - cbn [ymax xmax]. split; [exact Em | ]. unfold opp64. destruct Sg as [S1 S2]. apply orb_true_iff in S as [S | S]; apply andb_true_iff in S as [P Q]; rewrite Q, andb_true_r in *.
      + rewrite S1. split. apply andb_false_r. replace (flt (f root) zero) with false. reflexivity. symmetry. apply not_true_iff_false. intros X. apply neg_not_pos in X. congruence.
      + rewrite S2. split. apply neg_not_pos in P. rewrite P. reflexivity. apply andb_false_r.
    - split; [exact EM | ]. apply orb_false_iff in S as [S1 S2]. split; assumption. }
  destruct B1 as [EM1 Sg1]. assert (H1 : hull lo hi (xmin b1) /\ hull lo hi (xmax b1)) by (unfold b1; destruct same; split; assumption). clearbody b1.
  set (d1 := if same then _ else d) in *. clearbody d1.
  set (e1 := if same then _ else e) in *. clearbody e1. clear Em EM Sg.
  assert (G : forall root' b', hull lo hi root' -> hull lo hi (xmin b') -> hull lo hi (xmax b') -> ymax b' = f (xmax b') -> opp64 (f root') (ymax b') ->
    (if fle (fabs (fmul half64 (fsub (xmax b') root'))) (fadd (fmul (fmul two eps64) (fabs root')) (fmul half64 acc)) || close64 (f root') zero then Ret root'
     else let '(d, e) := brent_step64 root' (f root') (fmul half64 (fsub (xmax b') root')) (fadd (fmul (fmul two eps64) (fabs root')) (fmul half64 acc)) d1 e1 b' in
       let root'' := if flt (fadd (fmul (fmul two eps64) (fabs root')) (fmul half64 acc)) (fabs d) then fadd root' d else fadd root' (nrsign64 (fadd (fmul (fmul two eps64) (fabs root')) (fmul half64 acc)) (fmul half64 (fsub (xmax b') root'))) in
       brent_loop64 fuel f acc (count + 1) root'' (f root'') d e (Bracket64 root' (xmax b') (f root') (ymax b'))) = Ret v ->
    v = zero \/ (fin (f v) /\ Rabs (val (f v)) < tiny64) \/
    exists z, hull lo hi z /\ hull lo hi v /\ opp64 (f v) (f z) /\ fle (fabs (fmul half64 (fsub z v))) (fadd (fmul (fmul two eps64) (fabs v)) (fmul half64 acc)) = true).
  { clear H EM1 Sg1. intros root' b' Hr' Hm' HM' EM1 Sg1 H.
    destruct (fle (fabs _) _) eqn:D; cbn [orb] in H.
    - injection H as <-. right; right. exists (xmax b'). split; [exact HM' | split; [exact Hr' | split; [rewrite <- EM1; exact Sg1 | exact D]]].
    - destruct (close64 (f root') zero) eqn:C.
      + injection H as <-. right; left. apply close64_zero, C.
      + destruct (brent_step64 root' _ _ _ d1 e1 b') as [d2 e2] eqn:St. cbv zeta in H.
        pose proof (brent_next root' (xmax b') acc (proj1 Hr') (proj1 HM') Fa (hull_mag lo hi Bl Bh _ Hr') (hull_mag lo hi Bl Bh _ HM') La Ba D _ d1 e1 b' d2 e2 St) as [Fn Bn].
        eapply IH; [ | | | exact H | reflexivity | exact EM1 | exact Sg1]; [apply (hull_btw lo hi root' (xmax b')); assumption | exact Hr' | exact HM']. }
  destruct (flt (fabs (ymax b1)) (fabs (f root))).
  - rewrite EM1 in H. cbn [xmax ymax] in H. apply (G (xmax b1) (Bracket64 root root (f root) (f root))); [tauto | exact Hr | exact Hr | reflexivity | | exact H].
    cbn [ymax]. rewrite EM1 in Sg1. apply opp64_sym, Sg1.
  - apply (G root b1); tauto.
Qed.

Lemma change_opp f b : change64 f b -> opp64 (ymin b) (ymax b).
Proof. intros (-> & -> & [[A B] | [A B]]); unfold opp64.
  - rewrite (neg_not_pos _ A). split. reflexivity. replace (flt (f (xmax b)) zero) with false. apply andb_false_r. symmetry. apply not_true_iff_false. intros X. apply neg_not_pos in X. congruence.
  - rewrite (neg_not_pos _ B). split. apply andb_false_r. replace (flt (f (xmin b)) zero) with false. reflexivity. symmetry. apply not_true_iff_false. intros X. apply neg_not_pos in X. congruence. Qed.

(** A value returned by Brent's method is the fallback, or the objective is numerically zero there, or
    there is a point where the objective does not have the same sign, at a distance of at most the
    accuracy plus four units in the last place, up to one per cent. *)
Theorem brent64_sound fuel f acc b count v : change64 f b -> fin (xmin b) -> fin (xmax b) ->
  Rabs (val (xmin b)) <= bpow radix2 1000 -> Rabs (val (xmax b)) <= bpow radix2 1000 -> fin acc -> fle eps64 acc = true -> val acc <= bpow radix2 1000 ->
  brent_impl64 fuel f acc b count = Ret v ->
  v = zero \/ (fin (f v) /\ Rabs (val (f v)) < tiny64) \/
  exists z, fin z /\ fin v /\ opp64 (f v) (f z) /\ Rabs (val z - val v) <= 101 / 100 * (val acc + 4 * bpow radix2 (-52) * Rabs (val v)).
Proof.
  intros Ch F1 F2 B1 B2 Fa La Ba H. pose proof (change_opp f b Ch) as Op. destruct Ch as (Em & EM & _). unfold brent_impl64 in H. rewrite EM in H.
  assert (H1 : hull (- bpow radix2 1000) (bpow radix2 1000) (xmin b)) by (split; [exact F1 | apply Rabs_le_inv, B1]).
  assert (H2 : hull (- bpow radix2 1000) (bpow radix2 1000) (xmax b)) by (split; [exact F2 | apply Rabs_le_inv, B2]).
  destruct (brent_loop64_outcome f acc _ _ (Rle_refl _) (Rle_refl _) Fa La Ba _ _ _ _ _ _ _ H2 H1 H2 H Em EM Op) as [Z | [Z | (z & Hz & Hv & O & D)]]. left; exact Z. right; left; exact Z.
  right; right. exists z. split. apply Hz. split. apply Hv. split. exact O.
  assert (Bv : Rabs (val v) <= bpow radix2 1000) by (apply Rabs_le, Hv). assert (Bz : Rabs (val z) <= bpow radix2 1000) by (apply Rabs_le, Hz).
  destruct (mid_R v z (proj1 Hv) (proj1 Hz) Bv Bz) as [M1 M2]. destruct (acc1_R v acc (proj1 Hv) Fa Bv La Ba) as (A1 & A2 & A3).
  apply fle_R in D; [ | apply fabs_fin, M1 | exact A1]. rewrite fabs_R, M2, A2 in D. pose proof (acc_ge acc Fa La) as AG.
  pose proof u_pos as U. pose proof u_tiny as UT. pose proof eta_pos as EP. pose proof eta_tiny as ET. pose proof (bpow_gt_0 radix2 (-52)) as P52.
  assert (P60 : bpow radix2 (-60) = / 256 * bpow radix2 (-52)) by (change (-60)%Z with (-8 + -52)%Z; rewrite bpow_plus; reflexivity).
  set (w := val z - val v) in *. set (r := Rabs (val v)) in *. assert (R0 : 0 <= r) by apply Rabs_pos. set (A := val acc) in *. set (E := bpow radix2 (-52)) in *.
  assert (E51 : bpow radix2 (-51) = 2 * E). { unfold E. change (-51)%Z with (1 + -52)%Z. rewrite bpow_plus. reflexivity. } rewrite E51 in D.
  assert (Et : eta <= / 100000 * A) by lra. assert (Er : 0 <= E * r) by (apply Rmult_le_pos; lra).
  assert (X1 : rnd (2 * E * r) <= 1001 / 1000 * (2 * (E * r)) + eta). { pose proof (rnd_mag (2 * E * r)) as X. rewrite (Rabs_pos_eq (2 * E * r)) in X by lra. pose proof (Rle_abs (rnd (2 * E * r))). nra. }
  assert (X2 : rnd (/ 2 * A) <= 1001 / 1000 * (/ 2 * A) + eta). { pose proof (rnd_mag (/ 2 * A)) as X. rewrite (Rabs_pos_eq (/ 2 * A)) in X by lra. pose proof (Rle_abs (rnd (/ 2 * A))). nra. }
  assert (Y1 : 0 <= rnd (2 * E * r)) by (apply rnd_sign; lra). assert (Y2 : 0 <= rnd (/ 2 * A)) by (apply rnd_sign; lra).
  set (s := rnd (2 * E * r) + rnd (/ 2 * A)) in *. assert (X3 : rnd s <= 1001 / 1000 * s + eta). { pose proof (rnd_mag s) as X. rewrite (Rabs_pos_eq s) in X by (unfold s; lra). pose proof (Rle_abs (rnd s)). assert (0 <= s) by (unfold s; lra). nra. }
  assert (L1 : forall x, Rabs x * (999 / 1000) - eta <= Rabs (rnd x)).
  { intros x. destruct (rnd_err x) as (e & h & He & Hh & ->). replace (x * (1 + e) + h) with (x - (- (x * e) - h)) by ring. pose proof (Rabs_triang_inv x (- (x * e) - h)) as T.
    assert (Rabs (- (x * e) - h) <= Rabs x * u + eta). { unfold Rminus. eapply Rle_trans. apply Rabs_triang. rewrite !Rabs_Ropp, Rabs_mult. apply Rplus_le_compat; [apply Rmult_le_compat_l; [apply Rabs_pos | exact He] | exact Hh]. }
    pose proof (Rabs_pos x). nra. }
  pose proof (L1 w) as W1. pose proof (L1 (/ 2 * rnd w)) as W2. rewrite Rabs_mult, (Rabs_pos_eq (/ 2)) in W2 by lra. assert (S1 : s <= 1001 / 1000 * (2 * (E * r)) + 1001 / 1000 * (/ 2 * A) + 2 * eta) by (unfold s; lra). clearbody s w. lra.
Qed.
Print Assumptions brent64_sound.
Example brent64_sound_case : let f := fun x => fsub (fmul x x) two in let b := Bracket64 one two (f one) (f two) in
  change64 f b /\ match brent_impl64 1000 f (lit 1 (-40)) b 2 with Ret v => flt (fabs (fsub v (lit 6369051672525773 (-52)))) (lit 1 (-40)) | _ => false end = true.
Proof. cbv zeta. split. split. reflexivity. split. reflexivity. left. split; vm_compute; reflexivity. vm_compute. reflexivity. Qed.

(** ** the safeguarded Newton iteration *)
Definition newton_outcome64 (f g : f64 -> f64) (acc v : f64) : Prop :=
  (exists a b, flt (f a) zero = true /\ flt (f b) zero = false /\ v = fadd a (fdiv (fsub b a) two) /\ flt (fabs (fdiv (fsub b a) two)) acc = true) \/
  (exists x, v = fsub x (fdiv (f x) (g x)) /\ flt (fabs (fdiv (f x) (g x))) acc = true).
Lemma newton_loop64_outcome f g acc : forall fuel count root xl xh dx dxold v,
  newton_loop64 fuel f g acc count root (f root) (g root) xl xh dx dxold = Ret v ->
  flt (f xl) zero = true -> flt (f xh) zero = false -> v = zero \/ newton_outcome64 f g acc v.
Proof.
  induction fuel as [| fuel IH]; intros count root xl xh dx dxold v H Fl Fh; [discriminate | ].
  cbn [newton_loop64] in H. destruct (count <=? max_iter64)%Z; [ | injection H as <-; left; reflexivity]. cbv zeta in H.
  destruct (_ || _).
  - destruct (flt (fabs _) acc) eqn:D. injection H as <-. right; left. exists xl, xh. auto.
    destruct (flt (f _) zero) eqn:L; eapply IH; eauto.
  - destruct (flt (fabs _) acc) eqn:D. injection H as <-. right; right. exists root. auto.
    destruct (flt (f _) zero) eqn:L; eapply IH; eauto.
Qed.

(** A value returned by Newton's method is the fallback, or the midpoint of two points with a sign
    change (or a NaN) whose half distance is below the accuracy, or the result of a Newton step
    shorter than the accuracy. *)
Theorem newton64_sound fuel f g acc b count v : change64 f b -> newton_impl64 fuel f g acc b count = Ret v -> v = zero \/ newton_outcome64 f g acc v.
Proof.
  intros (Em & EM & Ch) H. unfold newton_impl64 in H. cbv zeta in H. rewrite Em in H. destruct Ch as [[A B] | [A B]].
  - rewrite A in H. eapply newton_loop64_outcome; [exact H | exact A | ]. apply not_true_iff_false. intros X. apply neg_not_pos in X. congruence.
  - replace (flt (f (xmin b)) zero) with false in H. 2:{ symmetry. apply not_true_iff_false. intros X. apply neg_not_pos in X. congruence. }
    eapply newton_loop64_outcome; [exact H | exact B | ]. apply not_true_iff_false. intros X. apply neg_not_pos in X. congruence.
Qed.
Print Assumptions newton64_sound.
Example newton64_sound_case : let f := fun x => fsub (fmul x x) two in let b := Bracket64 one two (f one) (f two) in
  change64 f b /\ match newton_impl64 1000 f (fun x => fmul two x) (lit 1 (-40)) b 2 with Ret v => flt (fabs (fsub v (lit 6369051672525773 (-52)))) (lit 1 (-50)) | _ => false end = true.
Proof. cbv zeta. split. split. reflexivity. split. reflexivity. left. split; vm_compute; reflexivity. vm_compute. reflexivity. Qed.

