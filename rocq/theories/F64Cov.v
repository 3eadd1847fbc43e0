(** Property C114: accuracy of the two-pass variance and covariance in binary64. *)
From Coq Require Import ZArith Reals List Bool Lia Lra Psatz.
From Flocq Require Import Core.Core IEEE754.BinarySingleNaN.
From Verif Require Import Res F64Model F64Base F64Order F64Sum F64Quad F64FdGrid.
Import ListNotations.
Local Open Scope R_scope.

(** ** Sums over a list *)
Definition sm {A} (g : A -> R) (l : list A) : R := fold_right Rplus 0 (map g l).
Lemma sm_cons {A} (g : A -> R) x l : sm g (x :: l) = g x + sm g l. Proof. reflexivity. Qed.
Lemma sm_lin {A} (g h : A -> R) c d l : sm (fun x => c * g x + d * h x) l = c * sm g l + d * sm h l.
Proof. induction l as [|x l IH]; [unfold sm; cbn; ring|]. rewrite !sm_cons, IH. ring. Qed.
Lemma sm_const {A} c (l : list A) : sm (fun _ => c) l = INR (length l) * c.
Proof. induction l as [|x l IH]; [unfold sm; cbn; ring|]. rewrite sm_cons, IH. cbn [length]. rewrite S_INR. ring. Qed.
Lemma sm_ext {A} (g h : A -> R) l : (forall x, In x l -> g x = h x) -> sm g l = sm h l.
Proof. induction l as [|x l IH]; intros H; [reflexivity|]. rewrite !sm_cons, (H x), IH; [reflexivity| |left; reflexivity]. intros y Y. apply H. right. exact Y. Qed.
Lemma sm_le {A} (g h : A -> R) l : (forall x, In x l -> g x <= h x) -> sm g l <= sm h l.
Proof. induction l as [|x l IH]; intros H; [apply Rle_refl|]. rewrite !sm_cons. apply Rplus_le_compat; [apply H; left; reflexivity|apply IH; intros y Y; apply H; right; exact Y]. Qed.
Lemma sm_pos {A} (g : A -> R) l : (forall x, In x l -> 0 <= g x) -> 0 <= sm g l.
Proof. intros H. induction l as [|x l IH]; [apply Rle_refl|]. rewrite sm_cons. pose proof (H x (or_introl eq_refl)). assert (0 <= sm g l) by (apply IH; intros y Y; apply H; right; exact Y). lra. Qed.
Lemma sm_abs {A} (g : A -> R) l : Rabs (sm g l) <= sm (fun x => Rabs (g x)) l.
Proof. induction l as [|x l IH]; [unfold sm; cbn; rewrite Rabs_R0; lra|]. rewrite !sm_cons. eapply Rle_trans; [apply Rabs_triang|]. lra. Qed.

(** ** One product of deviations *)
Lemma grow x g e : Rabs (x - 1) <= g - 1 -> Rabs e <= u -> Rabs (x * (1 + e) - 1) <= g * (1 + u) - 1.
Proof.
  intros X E. pose proof u_pos as U. pose proof (Rabs_pos (x - 1)) as P. replace (x * (1 + e) - 1) with ((x - 1) + x * e) by ring. eapply Rle_trans; [apply Rabs_triang|]. rewrite Rabs_mult.
  assert (XG : Rabs x <= g) by (replace x with ((x - 1) + 1) by ring; eapply Rle_trans; [apply Rabs_triang|]; rewrite Rabs_R1; lra).
  assert (Rabs x * Rabs e <= g * u) by (apply Rmult_le_compat; try apply Rabs_pos; assumption). lra.
Qed.
Definition dev64 (mx my : f64) (p : f64 * f64) : f64 := fmul (fsub (fst p) mx) (fsub (snd p) my).
Definition dev (x y : R) (p : f64 * f64) : R := (val (fst p) - x) * (val (snd p) - y).
Lemma dev_error mx my p : fin (dev64 mx my p) -> fin mx /\ fin my /\
  Rabs (val (dev64 mx my p) - dev (val mx) (val my) p) <= ((1 + u) ^ 3 - 1) * Rabs (dev (val mx) (val my) p) + eta.
Proof.
  intros H. unfold dev64 in *. destruct (fmul_fin _ _ H) as (FX & FY & V & _). destruct (fsub_fin _ _ FX) as (_ & MX & VX & _). destruct (fsub_fin _ _ FY) as (_ & MY & VY & _). split; [exact MX|]. split; [exact MY|].
  unfold dev. rewrite V. destruct (rnd_plus_err (val (fst p)) (- val mx) (val_fmt _) (fmt_opp _ (val_fmt mx))) as (e1 & E1 & R1). destruct (rnd_plus_err (val (snd p)) (- val my) (val_fmt _) (fmt_opp _ (val_fmt my))) as (e2 & E2 & R2).
  unfold Rminus in VX, VY. rewrite R1 in VX. rewrite R2 in VY. rewrite VX, VY. change (val (fst p) + - val mx) with (val (fst p) - val mx). change (val (snd p) + - val my) with (val (snd p) - val my). set (a := val (fst p) - val mx) in *. set (b := val (snd p) - val my) in *.
  destruct (rnd_err (a * (1 + e1) * (b * (1 + e2)))) as (e3 & h & E3 & HH & R3). rewrite R3.
  replace (a * (1 + e1) * (b * (1 + e2)) * (1 + e3) + h - a * b) with (((1 + e1) * (1 + e2) * (1 + e3) - 1) * (a * b) + h) by ring.
  eapply Rle_trans; [apply Rabs_triang|]. apply Rplus_le_compat; [|exact HH]. rewrite Rabs_mult. apply Rmult_le_compat_r; [apply Rabs_pos|].
  replace ((1 + u) ^ 3) with ((1 + u) * (1 + u) * (1 + u)) by ring. apply grow; [|exact E3]. apply grow; [|exact E2]. replace (1 + e1 - 1) with e1 by ring. lra.
Qed.

(** ** The quotient of the sum of products, with the computed means *)
Lemma cross_error neg ps mx my d D : ps <> [] -> val d = D -> 0 < D -> fin (fdiv (fsum neg (map (dev64 mx my) ps)) d) ->
  let n := length ps in let T := sm (fun p => Rabs (dev (val mx) (val my) p)) ps in
  fin mx /\ fin my /\ Rabs (val (fdiv (fsum neg (map (dev64 mx my) ps)) d) - sm (dev (val mx) (val my)) ps / D) <= ((1 + u) ^ (n + 3) - 1) * (T / D) + (1 + u) ^ n * (INR n * eta) / D + eta.
Proof.
  intros NE VD D0 H n T. destruct (fdiv_fin _ d ltac:(lra) H) as (FS & VQ & _). destruct (sum_error neg _ FS) as [FA SE]. rewrite map_length in SE. fold n in SE.
  assert (FP : forall p, In p ps -> fin (dev64 mx my p)) by (intros p P; apply (proj1 (Forall_forall _ _) FA), in_map, P).
  assert (FM : fin mx /\ fin my) by (destruct ps as [|p ps']; [congruence|]; destruct (dev_error mx my p (FP p (or_introl eq_refl))) as (A & B & _); auto). destruct FM as [FX FY]. split; [exact FX|]. split; [exact FY|].
  pose proof u_pos as U. pose proof eta_pos as N0. assert (N1 : (1 <= n)%nat) by (unfold n; destruct ps; [congruence|cbn; lia]).
  set (S := sm (dev (val mx) (val my)) ps) in *. set (s := val (fsum neg (map (dev64 mx my) ps))) in *.
  assert (EX : exact (map (dev64 mx my) ps) = sm (fun p => val (dev64 mx my p)) ps) by (unfold exact, sm; rewrite map_map; reflexivity).
  assert (MG : mag (map (dev64 mx my) ps) = sm (fun p => Rabs (val (dev64 mx my p))) ps) by (unfold mag, sm; rewrite map_map; reflexivity). rewrite EX, MG in SE.
  assert (T0 : 0 <= T) by (apply sm_pos; intros; apply Rabs_pos).
  assert (PE : Rabs (sm (fun p => val (dev64 mx my p)) ps - S) <= ((1 + u) ^ 3 - 1) * T + INR n * eta).
  { replace (sm (fun p => val (dev64 mx my p)) ps - S) with (sm (fun p => 1 * val (dev64 mx my p) + -1 * dev (val mx) (val my) p) ps) by (rewrite sm_lin; unfold S; ring).
    eapply Rle_trans; [apply sm_abs|]. eapply Rle_trans; [apply (sm_le _ (fun p => ((1 + u) ^ 3 - 1) * Rabs (dev (val mx) (val my) p) + 1 * eta))|].
    - intros p P. replace (1 * val (dev64 mx my p) + -1 * dev (val mx) (val my) p) with (val (dev64 mx my p) - dev (val mx) (val my) p) by ring. rewrite Rmult_1_l. apply dev_error, FP, P.
    - rewrite (sm_lin (fun p => Rabs (dev (val mx) (val my) p)) (fun _ => eta)), sm_const. fold T n. lra. }
  assert (PM : sm (fun p => Rabs (val (dev64 mx my p))) ps <= (1 + u) ^ 3 * T + INR n * eta).
  { eapply Rle_trans; [apply (sm_le _ (fun p => (1 + u) ^ 3 * Rabs (dev (val mx) (val my) p) + 1 * eta))|].
    - intros p P. destruct (dev_error mx my p (FP p P)) as (_ & _ & E). replace (val (dev64 mx my p)) with ((val (dev64 mx my p) - dev (val mx) (val my) p) + dev (val mx) (val my) p) by ring. eapply Rle_trans; [apply Rabs_triang|]. lra.
    - rewrite (sm_lin (fun p => Rabs (dev (val mx) (val my) p)) (fun _ => eta)), sm_const. fold T n. lra. }
  pose proof (pow_ge (n - 1)) as G. pose proof (pow_ge 3) as G3. set (g := (1 + u) ^ (n - 1)) in *. set (g3 := (1 + u) ^ 3) in *. pose proof (pos_INR n) as NN. set (w := INR n * eta) in *. assert (W0 : 0 <= w) by (unfold w; nra).
  assert (GN : (1 + u) ^ n = (1 + u) * g) by (replace n with (Datatypes.S (n - 1)) at 1 by lia; reflexivity).
  assert (GN3 : (1 + u) ^ (n + 3) = (1 + u) * g * g3) by (rewrite pow_add, GN; reflexivity). rewrite GN, GN3.
  set (P := sm (fun p => val (dev64 mx my p)) ps) in *. set (Q := sm (fun p => Rabs (val (dev64 mx my p))) ps) in *.
  assert (SS : Rabs (s - S) <= (g * g3 - 1) * T + g * w).
  { replace (s - S) with ((s - P) + (P - S)) by ring. eapply Rle_trans; [apply Rabs_triang|]. assert ((g - 1) * Q <= (g - 1) * (g3 * T + w)) by (apply Rmult_le_compat_l; lra). lra. }
  assert (ST : Rabs S <= T) by apply sm_abs.
  assert (SB : Rabs s <= g * g3 * T + g * w) by (replace s with ((s - S) + S) by ring; eapply Rle_trans; [apply Rabs_triang|]; lra).
  rewrite VQ, VD. destruct (rnd_err (s / D)) as (e & h & E & HH & RR). fold s. rewrite RR. replace (s / D * (1 + e) + h - S / D) with (((s - S) + s * e) / D + h) by (field; lra).
  eapply Rle_trans; [apply Rabs_triang|]. apply Rplus_le_compat; [|exact HH]. unfold Rdiv. rewrite Rabs_mult, (Rabs_pos_eq (/ D)) by (left; apply Rinv_0_lt_compat, D0).
  assert (ID : 0 <= / D) by (left; apply Rinv_0_lt_compat, D0). rewrite <- Rmult_assoc, <- Rmult_plus_distr_r. apply Rmult_le_compat_r; [exact ID|].
  eapply Rle_trans; [apply Rabs_triang|]. rewrite Rabs_mult. assert (Rabs s * Rabs e <= (g * g3 * T + g * w) * u) by (apply Rmult_le_compat; try apply Rabs_pos; assumption). lra.
Qed.

(** ** Against the exact means *)
Definition true_mean (l : list f64) : R := exact l / INR (length l).
(** the error of a computed mean, from C92 *)
Definition mean_slack (l : list f64) : R := ((1 + u) ^ length l - 1) * (mag l / INR (length l)) + eta.
(** the sum of the products of the deviations from the exact means *)
Definition true_cross (l k : list f64) : R := sm (dev (true_mean l) (true_mean k)) (combine l k).
(** the same with magnitudes, each deviation widened by the error of its mean *)
Definition spread (l k : list f64) : R :=
  sm (fun p => (Rabs (val (fst p) - true_mean l) + mean_slack l) * (Rabs (val (snd p) - true_mean k) + mean_slack k)) (combine l k).
Definition cov_slack (l k : list f64) (D : R) : R := let n := length l in
  ((1 + u) ^ (n + 3) - 1) * (spread l k / D) + INR n * mean_slack l * mean_slack k / D + (1 + u) ^ n * (INR n * eta) / D + eta.

Lemma sm_fst (l k : list f64) : length l = length k -> sm (fun p => val (fst p)) (combine l k) = exact l.
Proof. revert k. induction l as [|x l IH]; intros [|y k] H; try discriminate H; [reflexivity|]. cbn [combine]. rewrite sm_cons, IH by (cbn in H; lia). reflexivity. Qed.
Lemma sm_snd (l k : list f64) : length l = length k -> sm (fun p => val (snd p)) (combine l k) = exact k.
Proof. revert k. induction l as [|x l IH]; intros [|y k] H; try discriminate H; [reflexivity|]. cbn [combine]. rewrite sm_cons, IH by (cbn in H; lia). reflexivity. Qed.
Lemma shift l k x y : length l = length k -> l <> [] -> sm (dev x y) (combine l k) = true_cross l k + INR (length l) * ((true_mean l - x) * (true_mean k - y)).
Proof.
  intros L NE. assert (N0 : INR (length l) <> 0) by (apply not_0_INR; destruct l; [congruence|discriminate]). set (A := true_mean l). set (B := true_mean k).
  assert (LC : length (combine l k) = length l) by (rewrite combine_length; lia).
  assert (DX : sm (fun p => 1 * val (fst p) + - A * 1) (combine l k) = 0) by (rewrite sm_lin, sm_fst, sm_const, LC by exact L; unfold A, true_mean; field; exact N0).
  assert (DY : sm (fun p => 1 * val (snd p) + - B * 1) (combine l k) = 0) by (rewrite sm_lin, sm_snd, sm_const, LC by exact L; unfold B, true_mean; rewrite <- L; field; exact N0).
  unfold true_cross. fold A B. pose (X := fun p : f64 * f64 => 1 * val (fst p) + - A * 1). pose (Y := fun p : f64 * f64 => 1 * val (snd p) + - B * 1). pose (f1 := fun p => 1 * dev A B p + (B - y) * X p). pose (f2 := fun p => (A - x) * Y p + ((A - x) * (B - y)) * 1).
  rewrite (sm_ext (dev x y) (fun p => 1 * f1 p + 1 * f2 p)) by (intros p _; unfold f1, f2, X, Y, dev; ring).
  rewrite (sm_lin f1 f2). unfold f1 at 1, f2 at 1. rewrite (sm_lin (dev A B) X), (sm_lin Y (fun _ => 1)), sm_const, LC. fold X in DX. fold Y in DY. rewrite DX, DY. ring.
Qed.
Lemma cross_accurate neg l k mx my d D : length l = length k -> small (length l) -> mean64 neg l = Ret mx -> mean64 neg k = Ret my -> val d = D -> 0 < D ->
  fin (fdiv (fsum neg (map (dev64 mx my) (combine l k))) d) -> Forall fin l /\ Forall fin k /\
  Rabs (val (fdiv (fsum neg (map (dev64 mx my) (combine l k))) d) - true_cross l k / D) <= cov_slack l k D.
Proof.
  intros L SM EX EY VD D0 H. assert (NE : l <> []) by (intros ->; discriminate EX). assert (NC : combine l k <> []) by (destruct l, k; try discriminate; congruence).
  destruct (cross_error neg (combine l k) mx my d D NC VD D0 H) as (FX & FY & E). rewrite combine_length, <- L, Nat.min_id in E.
  destruct (mean_error neg l mx EX FX SM) as [FL EL]. rewrite L in SM. destruct (mean_error neg k my EY FY SM) as [FK EK]. split; [exact FL|]. split; [exact FK|].
  fold (true_mean l) (mean_slack l) in EL. fold (true_mean k) (mean_slack k) in EK. rewrite (shift l k (val mx) (val my) L NE) in E. set (A := true_mean l) in *. set (B := true_mean k) in *. set (dx := mean_slack l) in *. set (dy := mean_slack k) in *.
  set (q := val (fdiv (fsum neg (map (dev64 mx my) (combine l k))) d)) in *. set (n := length l) in *. pose proof (pos_INR n) as N0. assert (ID : 0 <= / D) by (left; apply Rinv_0_lt_compat, D0).
  assert (TT : sm (fun p => Rabs (dev (val mx) (val my) p)) (combine l k) <= spread l k).
  { apply sm_le. intros p _. unfold dev. rewrite Rabs_mult. fold A B dx dy. apply Rmult_le_compat; try apply Rabs_pos.
    - replace (val (fst p) - val mx) with ((val (fst p) - A) - (val mx - A)) by ring. eapply Rle_trans; [apply Rabs_triang|]. rewrite Rabs_Ropp. lra.
    - replace (val (snd p) - val my) with ((val (snd p) - B) - (val my - B)) by ring. eapply Rle_trans; [apply Rabs_triang|]. rewrite Rabs_Ropp. lra. }
  assert (MM : Rabs (INR n * ((A - val mx) * (B - val my)) / D) <= INR n * dx * dy / D).
  { unfold Rdiv. rewrite !Rabs_mult, (Rabs_pos_eq (/ D) ID), (Rabs_pos_eq _ N0), (Rabs_minus_sym A), (Rabs_minus_sym B). apply Rmult_le_compat_r; [exact ID|]. rewrite Rmult_assoc. apply Rmult_le_compat_l; [exact N0|]. apply Rmult_le_compat; try apply Rabs_pos; assumption. }
  unfold cov_slack. fold n dx dy. pose proof (pow_ge (n + 3)) as G.
  assert (GT : ((1 + u) ^ (n + 3) - 1) * (sm (fun p => Rabs (dev (val mx) (val my) p)) (combine l k) / D) <= ((1 + u) ^ (n + 3) - 1) * (spread l k / D)) by (apply Rmult_le_compat_l; [lra|]; apply Rmult_le_compat_r; assumption).
  replace (q - true_cross l k / D) with ((q - (true_cross l k + INR n * ((A - val mx) * (B - val my))) / D) + INR n * ((A - val mx) * (B - val my)) / D) by (field; lra).
  eapply Rle_trans; [apply Rabs_triang|]. lra.
Qed.

(** The covariance differs from the exact one by about (n + 3) 2^-53 times the mean magnitude of the products
    of deviations; the errors of the means enter only through their product. *)
Theorem covariance64_accurate neg l k c : covariance64 neg l k = Ret c -> fin c -> small (length l) ->
  length l = length k /\ (2 <= length l)%nat /\ Forall fin l /\ Forall fin k /\ Rabs (val c - true_cross l k / (INR (length l) - 1)) <= cov_slack l k (INR (length l) - 1).
Proof.
  unfold covariance64. intros H FC SM. destruct (Nat.eqb_spec (length l) (length k)) as [L|]; [|discriminate H]. destruct (Nat.ltb_spec 1 (length l)) as [L2|]; [|discriminate H]. cbn [assertb] in H.
  split; [exact L|]. split; [lia|]. destruct (usize_R _ SM) as [FN VN]. assert (N2 : 2 <= INR (length l)) by (change 2 with (INR 2); apply le_INR; lia).
  assert (RI : rnd (INR (length l) - 1) = INR (length l) - 1). { apply rnd_id. rewrite INR_IZR_INZ. replace (IZR (Z.of_nat (length l)) - 1) with (IZR (Z.of_nat (length l) - 1)) by (rewrite minus_IZR; reflexivity). apply int_fmt. unfold small in SM. lia. }
  assert (BI : Rabs (rnd (val (of_usize (length l)) - val one)) < fmaxR). { rewrite VN, (proj2 one_R), RI. rewrite Rabs_pos_eq by lra. pose proof (val_lt (of_usize (length l))) as B. rewrite VN, Rabs_pos_eq in B by lra. lra. }
  destruct (fsub_R _ _ FN (proj1 one_R) BI) as [_ VD]. rewrite VN, (proj2 one_R), RI in VD.
  assert (EX : mean64 neg l = Ret (fdiv (fsum neg l) (of_usize (length l)))) by (unfold mean64; destruct l; [cbn in L2; lia|reflexivity]).
  assert (EY : mean64 neg k = Ret (fdiv (fsum neg k) (of_usize (length l)))) by (rewrite L; unfold mean64; destruct k; [cbn in L; lia|reflexivity]).
  assert (E : c = fdiv (fsum neg (map (dev64 (fdiv (fsum neg l) (of_usize (length l))) (fdiv (fsum neg k) (of_usize (length l)))) (combine l k))) (fsub (of_usize (length l)) one)) by (injection H; intros <-; reflexivity).
  rewrite E in *. apply cross_accurate; try assumption. lra.
Qed.
Print Assumptions covariance64_accurate.

Lemma dev_square mu l : map (fun x => sq64 (fsub x mu)) l = map (dev64 mu mu) (combine l l).
Proof. induction l as [|x l IH]; [reflexivity|]. cbn. rewrite IH. reflexivity. Qed.
(** The variances, about the sample and about the population, in the same terms. *)
Theorem variance64_accurate neg l v : fin v -> small (length l) ->
  (sample_variance64 neg l = Ret v -> (2 <= length l)%nat -> Forall fin l /\ Rabs (val v - true_cross l l / (INR (length l) - 1)) <= cov_slack l l (INR (length l) - 1)) /\
  (population_variance64 neg l = Ret v -> Forall fin l /\ Rabs (val v - true_cross l l / INR (length l)) <= cov_slack l l (INR (length l))).
Proof.
  intros FV SM. split.
  - intros H L2. unfold sample_variance64 in H. destruct l as [|x l']; [discriminate H|]. set (l := x :: l') in *. assert (E : mean64 neg l = Ret (fdiv (fsum neg l) (of_usize (length l)))) by reflexivity. rewrite E in H. cbn [nonempty bind assertb] in H. rewrite dev_square in H.
    set (m := fdiv (fsum neg l) (of_usize (length l))) in *. assert (EV : v = fdiv (fsum neg (map (dev64 m m) (combine l l))) (of_usize (length l - 1))) by (injection H; intros <-; reflexivity). rewrite EV in *. clear H EV.
    assert (S1 : small (length l - 1)) by (unfold small in *; lia). destruct (usize_R _ S1) as [_ VD]. rewrite minus_INR in VD by lia. change (INR 1) with 1 in VD. assert (N2 : 2 <= INR (length l)) by (change 2 with (INR 2); apply le_INR; lia).
    destruct (cross_accurate neg l l m m _ _ eq_refl SM E E VD ltac:(lra) FV) as (A & _ & B). auto.
  - intros H. unfold population_variance64 in H. destruct l as [|x l']; [discriminate H|]. set (l := x :: l') in *. assert (E : mean64 neg l = Ret (fdiv (fsum neg l) (of_usize (length l)))) by reflexivity. rewrite E in H. cbn [nonempty bind assertb] in H. rewrite dev_square in H.
    set (m := fdiv (fsum neg l) (of_usize (length l))) in *. assert (EV : v = fdiv (fsum neg (map (dev64 m m) (combine l l))) (of_usize (length l))) by (injection H; intros <-; reflexivity). rewrite EV in *. clear H EV.
    destruct (usize_R _ SM) as [_ VD]. assert (N1 : 0 < INR (length l)) by (apply lt_0_INR; cbn; lia). destruct (cross_accurate neg l l m m _ _ eq_refl SM E E VD N1 FV) as (A & _ & B). auto.
Qed.
Print Assumptions variance64_accurate.

(** ** Deviations *)
Lemma sqrt_gap a b : 0 <= a -> 0 <= b -> Rabs (sqrt a - sqrt b) <= sqrt (Rabs (a - b)).
Proof.
  intros A B. assert (K : forall x y, 0 <= y <= x -> sqrt x - sqrt y <= sqrt (x - y)).
  { intros x y H. pose proof (sqrt_pos y) as Y. pose proof (sqrt_pos (x - y)) as D. assert (sqrt x <= sqrt y + sqrt (x - y)); [|lra]. rewrite <- (sqrt_square (sqrt y + sqrt (x - y))) by lra. apply sqrt_le_1_alt.
    pose proof (sqrt_sqrt y ltac:(lra)). pose proof (sqrt_sqrt (x - y) ltac:(lra)). pose proof (Rmult_le_pos _ _ Y D). lra. }
  destruct (Rle_or_lt a b) as [L|L].
  - rewrite Rabs_minus_sym, (Rabs_minus_sym a). rewrite !Rabs_pos_eq; [apply K; lra|lra|]. pose proof (sqrt_le_1_alt _ _ L). lra.
  - rewrite !Rabs_pos_eq; [apply K; lra|lra|]. pose proof (sqrt_le_1_alt _ _ (Rlt_le _ _ L)). lra.
Qed.
Lemma true_cross_pos l : 0 <= true_cross l l.
Proof. unfold true_cross. apply sm_pos. intros [x y] H. assert (E : x = y). { clear - H. induction l as [|z l IH]; [destruct H|]. cbn in H. destruct H as [H|H]; [congruence|auto]. } subst y. unfold dev. cbn [fst snd]. apply Rle_0_sqr. Qed.
(** The standard deviation is off by at most the root of the error of the variance, and one rounding. *)
Theorem deviation64_accurate neg l s : standard_deviation64 neg l = Ret s -> fin s -> small (length l) ->
  let V := true_cross l l / (INR (length l) - 1) in let d := cov_slack l l (INR (length l) - 1) in
  Rabs (val s - sqrt V) <= sqrt d + u * (sqrt V + sqrt d) + eta.
Proof.
  intros H FS SM V d. unfold standard_deviation64 in H. destruct (Nat.ltb_spec 1 (length l)) as [L2|]; [|discriminate H]. cbn [assertb] in H. destruct (sample_variance64 neg l) as [v| |] eqn:EV; try discriminate H. cbn [rmap bind] in H.
  assert (ES : s = fsqrt v) by (injection H; intros <-; reflexivity). subst s. clear H.
  assert (FV : fin v) by (destruct v as [?|b| |? ? ? ?]; try reflexivity; [destruct b; discriminate FS|discriminate FS]).
  destruct (variance64_accurate neg l v FV SM) as [A _]. destruct (A EV ltac:(lia)) as [_ E]. fold V d in E.
  assert (V0 : 0 <= val v) by (apply (nn_val v FV); destruct (variance_nonneg neg l v (or_introl EV)) as [X|X]; [left|right]; exact X).
  assert (N2 : 2 <= INR (length l)) by (change 2 with (INR 2); apply le_INR; lia). assert (VP : 0 <= V) by (unfold V; apply Rmult_le_pos; [apply true_cross_pos|left; apply Rinv_0_lt_compat; lra]).
  assert (VS : val (fsqrt v) = rnd (sqrt (val v))) by (apply (Bsqrt_correct 53 1024 p53 pe53 mode_NE v)). rewrite VS.
  pose proof (rnd_abs_err (sqrt (val v))) as R. rewrite (Rabs_pos_eq (sqrt (val v))) in R by apply sqrt_pos. pose proof (sqrt_gap _ _ V0 VP) as G. assert (G' : sqrt (Rabs (val v - V)) <= sqrt d) by (apply sqrt_le_1_alt; exact E).
  assert (B : sqrt (val v) <= sqrt V + sqrt d) by (apply Rabs_le_inv in G; lra). pose proof u_pos as U. assert (u * sqrt (val v) <= u * (sqrt V + sqrt d)) by (apply Rmult_le_compat_l; lra).
  replace (rnd (sqrt (val v)) - sqrt V) with ((rnd (sqrt (val v)) - sqrt (val v)) + (sqrt (val v) - sqrt V)) by ring. eapply Rle_trans; [apply Rabs_triang|]. lra.
Qed.
Print Assumptions deviation64_accurate.

(** ** No overflow *)
Lemma pow_small n : (Z.of_nat n <= 2 ^ 40)%Z -> INR n <= 2 ^ 40 /\ (1 + u) ^ n <= 2.
Proof.
  intros H. assert (I : INR n <= 2 ^ 40) by (rewrite INR_IZR_INZ; apply IZR_le in H; eapply Rle_trans; [exact H|]; apply Req_le; change (2 ^ 40)%Z with 1099511627776%Z; lra).
  split; [exact I|]. pose proof u_pos as U. assert (K : INR n * u <= / 100). { eapply Rle_trans; [apply Rmult_le_compat_r; [lra|exact I]|]. unfold u. lra. }
  assert ((1 + u) ^ n <= bb ^ n) by (apply pow_incr; unfold bb; lra). pose proof (bb_lin n K). lra.
Qed.
Lemma mag_le l M : Forall (fun x => Rabs (val x) <= M) l -> mag l <= INR (length l) * M.
Proof. intros H. unfold mag. induction H as [|x l X H IH]; [cbn; lra|]. cbn [map fold_right length]. rewrite S_INR. lra. Qed.

Lemma sum_ok neg l M : Forall fin l -> Forall (fun x => Rabs (val x) <= M) l -> (Z.of_nat (length l) <= 2 ^ 40)%Z -> 0 <= M <= bpow radix2 970 ->
  fin (fsum neg l) /\ Rabs (val (fsum neg l)) <= 2 * (INR (length l) * M).
Proof.
  intros FL B N [M0 MB]. destruct (pow_small _ N) as [I P]. pose proof (mag_le l M B) as G. pose proof (mag_pos l) as G0. pose proof (pos_INR (length l)) as LN.
  assert (P1 : (1 + u) ^ (length l - 1) <= 2). { eapply Rle_trans; [|exact P]. apply Rle_pow; [pose proof u_pos; lra|lia]. } pose proof (pow_ge (length l - 1)) as PG. set (g := (1 + u) ^ (length l - 1)) in *.
  assert (BIG : 2 * (INR (length l) * M) < fmaxR). { assert (E : fmaxR = 2 ^ 54 * bpow radix2 970) by (unfold fmaxR; change 1024%Z with (54 + 970)%Z; rewrite bpow_plus; f_equal; change (bpow radix2 54) with (IZR (2 ^ 54)); change (2 ^ 54)%Z with 18014398509481984%Z; lra). pose proof (bpow_gt_0 radix2 970) as W. rewrite E. set (w := bpow radix2 970) in *. assert (INR (length l) * M <= 2 ^ 40 * w) by (apply Rmult_le_compat; lra). lra. }
  assert (FS : fin (fsum neg l)). { apply sum_finite; [exact FL|]. fold g. assert (g * mag l <= 2 * mag l) by (apply Rmult_le_compat_r; lra). lra. }
  split; [exact FS|]. destruct (sum_error neg l FS) as [_ E]. fold g in E. assert (XM : Rabs (exact l) <= mag l) by (apply (sm_abs val l)). replace (val (fsum neg l)) with ((val (fsum neg l) - exact l) + exact l) by ring. eapply Rle_trans; [apply Rabs_triang|].
  assert ((g - 1) * mag l <= mag l) by nra. lra.
Qed.
Lemma below x : Rabs x <= bpow radix2 1022 -> Rabs (rnd x) < fmaxR.
Proof.
  intros H. pose proof (rnd_abs_err x) as E. pose proof u_tiny as U. pose proof u_pos as U0. pose proof eta_tiny as N. assert (EE : fmaxR = 4 * bpow radix2 1022) by (unfold fmaxR; change 1024%Z with (2 + 1022)%Z; rewrite bpow_plus; f_equal). pose proof (bpow_le radix2 0 1022 ltac:(lia)) as O. change (bpow radix2 0) with 1 in O. rewrite EE. set (w := bpow radix2 1022) in *.
  replace (rnd x) with ((rnd x - x) + x) by ring. eapply Rle_lt_trans; [apply Rabs_triang|]. assert (u * Rabs x <= Rabs x) by (pose proof (Rabs_pos x); nra). lra.
Qed.
(** Up to 2^40 numbers of magnitude at most 2^480 have a finite covariance. *)
Theorem covariance64_finite neg l k c : covariance64 neg l k = Ret c -> (Z.of_nat (length l) <= 2 ^ 40)%Z ->
  Forall (fun x => fin x /\ Rabs (val x) <= bpow radix2 480) l -> Forall (fun x => fin x /\ Rabs (val x) <= bpow radix2 480) k -> fin c.
Proof.
  unfold covariance64. intros H N BL BK. destruct (Nat.eqb_spec (length l) (length k)) as [L|]; [|discriminate H]. destruct (Nat.ltb_spec 1 (length l)) as [L2|]; [|discriminate H]. cbn [assertb] in H.
  set (n := of_usize (length l)) in *. set (mx := fdiv (fsum neg l) n) in *. set (my := fdiv (fsum neg k) n) in *. assert (E : c = fdiv (fsum neg (map (dev64 mx my) (combine l k))) (fsub n one)) by (injection H; intros <-; reflexivity). subst c. clear H.
  assert (SM : small (length l)) by (unfold small; lia). destruct (usize_R _ SM) as [FN VN]. fold n in FN, VN. assert (N2 : 2 <= INR (length l)) by (change 2 with (INR 2); apply le_INR; lia). destruct (pow_small _ N) as [I _].
  set (w := bpow radix2 480) in *. assert (W1 : 1 <= w) by (change 1 with (bpow radix2 0); apply bpow_le; lia). pose proof u_tiny as UT. pose proof u_pos as U. pose proof eta_tiny as ET. pose proof eta_pos as E0.
  assert (W970 : 32 * (w * w) <= bpow radix2 970). { unfold w. rewrite <- bpow_plus. change 32 with (bpow radix2 5). rewrite <- bpow_plus. apply bpow_le. lia. }
  assert (W9 : bpow radix2 970 <= bpow radix2 1022) by (apply bpow_le; lia). assert (W4 : w <= w * w) by nra.
  assert (MEAN : forall q, length q = length l -> Forall (fun x => fin x /\ Rabs (val x) <= w) q -> fin (fdiv (fsum neg q) n) /\ Rabs (val (fdiv (fsum neg q) n)) <= 3 * w).
  { intros q LQ B. destruct (sum_ok neg q w) as [FS BS]; [apply (Forall_impl _ (fun a H => proj1 H) B)|apply (Forall_impl _ (fun a H => proj2 H) B)|rewrite LQ; exact N|lra|].
    rewrite LQ in BS. assert (D : Rabs (val (fsum neg q) / INR (length l)) <= 2 * w). { unfold Rdiv. rewrite Rabs_mult, (Rabs_pos_eq (/ _)) by (left; apply Rinv_0_lt_compat; lra). apply Rmult_le_reg_r with (INR (length l)); [lra|]. rewrite Rmult_assoc, Rinv_l, Rmult_1_r by lra. lra. }
    assert (BD : Rabs (rnd (val (fsum neg q) / val n)) < fmaxR) by (apply below; rewrite VN; lra). destruct (fdiv_R (fsum neg q) n FS ltac:(rewrite VN; lra) BD) as [FD VD]. split; [exact FD|]. rewrite VD, VN. pose proof (rnd_abs_err (val (fsum neg q) / INR (length l))) as R. set (z := val (fsum neg q) / INR (length l)) in *.
    replace (rnd z) with ((rnd z - z) + z) by ring. eapply Rle_trans; [apply Rabs_triang|]. assert (u * Rabs z <= / 1000000 * (2 * w)) by (apply Rmult_le_compat; try apply Rabs_pos; lra). lra. }
  destruct (MEAN l eq_refl BL) as [FX BX]. destruct (MEAN k (eq_sym L) BK) as [FY BY]. fold mx in FX, BX. fold my in FY, BY.
  assert (SUB : forall x m, fin x -> fin m -> Rabs (val x) <= w -> Rabs (val m) <= 3 * w -> fin (fsub x m) /\ Rabs (val (fsub x m)) <= 5 * w).
  { intros x m FX' FM' B1 B2. assert (B : Rabs (val x - val m) <= 4 * w) by (eapply Rle_trans; [apply Rabs_triang|]; rewrite Rabs_Ropp; lra). assert (BD : Rabs (rnd (val x - val m)) < fmaxR) by (apply below; lra). destruct (fsub_R _ _ FX' FM' BD) as [FD VD]. split; [exact FD|]. rewrite VD. pose proof (rnd_abs_err (val x - val m)) as R. set (z := val x - val m) in *.
    replace (rnd z) with ((rnd z - z) + z) by ring. eapply Rle_trans; [apply Rabs_triang|]. assert (u * Rabs z <= / 1000000 * (4 * w)) by (apply Rmult_le_compat; try apply Rabs_pos; lra). lra. }
  assert (DEV : forall p, In p (combine l k) -> fin (dev64 mx my p) /\ Rabs (val (dev64 mx my p)) <= 27 * (w * w)).
  { intros [x y] P. pose proof (proj1 (Forall_forall _ _) BL x (in_combine_l _ _ _ _ P)) as [F1 B1]. pose proof (proj1 (Forall_forall _ _) BK y (in_combine_r _ _ _ _ P)) as [F2 B2]. destruct (SUB x mx F1 FX B1 BX) as [G1 C1]. destruct (SUB y my F2 FY B2 BY) as [G2 C2]. unfold dev64. cbn [fst snd].
    assert (B : Rabs (val (fsub x mx) * val (fsub y my)) <= 25 * (w * w)) by (rewrite Rabs_mult; replace (25 * (w * w)) with ((5 * w) * (5 * w)) by ring; apply Rmult_le_compat; try apply Rabs_pos; assumption). assert (BD : Rabs (rnd (val (fsub x mx) * val (fsub y my))) < fmaxR) by (apply below; lra). destruct (fmul_R _ _ G1 G2 BD) as [FD VD]. split; [exact FD|]. rewrite VD. set (z := val (fsub x mx) * val (fsub y my)) in *. pose proof (rnd_abs_err z) as R.
    replace (rnd z) with ((rnd z - z) + z) by ring. eapply Rle_trans; [apply Rabs_triang|]. assert (u * Rabs z <= / 1000000 * (25 * (w * w))) by (apply Rmult_le_compat; try apply Rabs_pos; lra). lra. }
  assert (LC : length (map (dev64 mx my) (combine l k)) = length l) by (rewrite map_length, combine_length; lia).
  destruct (sum_ok neg (map (dev64 mx my) (combine l k)) (27 * (w * w))) as [FS BS]; [apply Forall_forall; intros z Z; apply in_map_iff in Z; destruct Z as (p & <- & P); apply DEV, P|apply Forall_forall; intros z Z; apply in_map_iff in Z; destruct Z as (p & <- & P); apply DEV, P|rewrite LC; exact N|lra|]. rewrite LC in BS.
  assert (RI : rnd (INR (length l) - 1) = INR (length l) - 1). { apply rnd_id. rewrite INR_IZR_INZ. replace (IZR (Z.of_nat (length l)) - 1) with (IZR (Z.of_nat (length l) - 1)) by (rewrite minus_IZR; reflexivity). apply int_fmt. unfold small in SM. lia. }
  assert (BI : Rabs (rnd (val n - val one)) < fmaxR). { rewrite VN, (proj2 one_R), RI. rewrite Rabs_pos_eq by lra. pose proof (val_lt n) as B. rewrite VN, Rabs_pos_eq in B by lra. lra. }
  destruct (fsub_R _ _ FN (proj1 one_R) BI) as [_ VD]. rewrite VN, (proj2 one_R), RI in VD.
  apply fdiv_R; [exact FS|lra|]. apply below. rewrite VD. set (S := val (fsum neg (map (dev64 mx my) (combine l k)))) in *. unfold Rdiv. rewrite Rabs_mult, (Rabs_pos_eq (/ _)) by (left; apply Rinv_0_lt_compat; lra).
  assert (SB : Rabs S <= 2 ^ 41 * bpow radix2 970). { eapply Rle_trans; [exact BS|]. assert (INR (length l) * (27 * (w * w)) <= 2 ^ 40 * bpow radix2 970) by (apply Rmult_le_compat; lra). lra. }
  assert (I1 : / (INR (length l) - 1) <= 1) by (rewrite <- Rinv_1 at 2; apply Rinv_le_contravar; lra). assert (I0 : 0 <= / (INR (length l) - 1)) by (left; apply Rinv_0_lt_compat; lra).
  assert (Q : Rabs S * / (INR (length l) - 1) <= Rabs S * 1) by (apply Rmult_le_compat_l; [apply Rabs_pos|exact I1]).
  assert (E22 : bpow radix2 1022 = 2 ^ 52 * bpow radix2 970) by (change 1022%Z with (52 + 970)%Z; rewrite bpow_plus; f_equal; change (bpow radix2 52) with (IZR (2 ^ 52)); change (2 ^ 52)%Z with 4503599627370496%Z; lra). rewrite E22. pose proof (bpow_gt_0 radix2 970). lra.
Qed.
Print Assumptions covariance64_finite.
Example covariance64_nv : match covariance64 false [one; two; lit 6 0] [two; two; lit 8 0] with Ret c => feq c (lit 9 0) | _ => false end = true.
Proof. vm_compute. reflexivity. Qed.
Example variance64_nv : match sample_variance64 true [one; two; lit 6 0] with Ret c => feq c (lit 7 0) | _ => false end = true.
Proof. vm_compute. reflexivity. Qed.
