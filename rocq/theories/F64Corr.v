(** Property C115: how far above one a correlation can be in binary64. *)
From Coq Require Import ZArith Reals List Bool Lia Lra Psatz.
From Flocq Require Import Core.Core IEEE754.BinarySingleNaN.
From Verif Require Import Res F64Model F64Base F64Order F64Sum F64Quad F64FdGrid F64Cov.
Import ListNotations.
Local Open Scope R_scope.

(** ** Cauchy-Schwarz over a list *)
Lemma sm_combine_fst {A} (g : A -> R) (l k : list A) : length l = length k -> sm (fun p => g (fst p)) (combine l k) = sm g l.
Proof. revert k. induction l as [|x l IH]; intros [|y k] L; try discriminate L; [reflexivity|]. cbn [combine]. rewrite !sm_cons, IH by (injection L; auto). reflexivity. Qed.
Lemma sm_combine_snd {A} (g : A -> R) (l k : list A) : length l = length k -> sm (fun p => g (snd p)) (combine l k) = sm g k.
Proof. revert k. induction l as [|x l IH]; intros [|y k] L; try discriminate L; [reflexivity|]. cbn [combine]. rewrite !sm_cons, IH by (injection L; auto). reflexivity. Qed.
Lemma cs_step P A B x y : 0 <= A -> 0 <= B -> P * P <= A * B -> (x * y + P) * (x * y + P) <= (x * x + A) * (y * y + B).
Proof.
  intros HA HB H. assert (K : 2 * (P * (x * y)) <= A * (y * y) + B * (x * x)).
  { apply Rsqr_incr_0_var; [|pose proof (Rle_0_sqr x); pose proof (Rle_0_sqr y); unfold Rsqr in *; apply Rplus_le_le_0_compat; apply Rmult_le_pos; assumption].
    unfold Rsqr. assert (Q : P * P * ((x * y) * (x * y)) <= A * B * ((x * y) * (x * y))) by (apply Rmult_le_compat_r; [apply Rle_0_sqr|exact H]). pose proof (Rle_0_sqr (A * (y * y) - B * (x * x))) as S. unfold Rsqr in S.
    replace (2 * (P * (x * y)) * (2 * (P * (x * y)))) with (4 * (P * P * ((x * y) * (x * y)))) by ring. apply Rle_trans with (4 * (A * B * (x * y * (x * y)))); [lra|]. apply Rminus_le. match type of S with 0 <= ?s => replace (4 * (A * B * (x * y * (x * y))) - (A * (y * y) + B * (x * x)) * (A * (y * y) + B * (x * x))) with (- s) by ring end. lra. }
  replace ((x * y + P) * (x * y + P)) with (x * y * (x * y) + 2 * (P * (x * y)) + P * P) by ring. replace ((x * x + A) * (y * y + B)) with (x * y * (x * y) + (A * (y * y) + B * (x * x)) + A * B) by ring. lra.
Qed.
Lemma cauchy {A} (f g : A -> R) l : sm (fun p => f p * g p) l * sm (fun p => f p * g p) l <= sm (fun p => f p * f p) l * sm (fun p => g p * g p) l.
Proof.
  induction l as [|z l IH]; [unfold sm; cbn; lra|]. rewrite !sm_cons. apply cs_step; [apply sm_pos; intros; apply Rle_0_sqr|apply sm_pos; intros; apply Rle_0_sqr|exact IH].
Qed.

(** ** The real inequalities *)
(** the exact mean square of the computed deviations against the computed deviation *)
Lemma var_up u' e d a q s v x : 0 < u' <= / 1000000 -> 0 <= e -> 0 <= d <= / 40 -> 0 <= q -> 0 < x -> 8 * e <= u' * (x * x) -> 8 * e <= u' * x ->
  (1 - u') * a <= q + 2 * e -> (1 - d) * q <= s -> (1 - u') * s <= v + e -> 0 <= v -> (1 - u') * sqrt v <= x + e -> (1 - d) * a <= (1 + 8 * u') * (x * x).
Proof.
  intros [U0 U1] E0 [D0 D1] Q0 X0 EX EX' HA HQ HS V0 HV. set (r := sqrt v) in *. assert (R0 : 0 <= r) by apply sqrt_pos. assert (RV : v = r * r) by (unfold r; rewrite sqrt_sqrt; lra).
  set (xx := x * x) in *. assert (XX : 0 < xx) by (apply Rmult_lt_0_compat; lra). assert (UU : u' * u' <= / 1000000 * u') by (apply Rmult_le_compat_r; lra). assert (UU0 : 0 <= u' * u') by (apply Rle_0_sqr).
  assert (HR : r <= x * (1 + / 8 * u') * (1 + u' + 2 * (u' * u'))). { apply Rmult_le_reg_l with (1 - u'); [lra|]. eapply Rle_trans; [exact HV|]. assert (W : 1 <= (1 - u') * (1 + u' + 2 * (u' * u'))) by (replace ((1 - u') * (1 + u' + 2 * (u' * u'))) with (1 + (u' * u') * (1 - 2 * u')) by ring; assert (0 <= (u' * u') * (1 - 2 * u')) by (apply Rmult_le_pos; lra); lra).
    replace ((1 - u') * (x * (1 + / 8 * u') * (1 + u' + 2 * (u' * u')))) with (x * (1 + / 8 * u') * ((1 - u') * (1 + u' + 2 * (u' * u')))) by ring. apply Rle_trans with (x * (1 + / 8 * u') * 1); [lra|]. apply Rmult_le_compat_l; [apply Rmult_le_pos; lra|exact W]. }
  assert (HR2 : r <= x * (1 + 12 / 10 * u')). { eapply Rle_trans; [exact HR|]. rewrite Rmult_assoc. apply Rmult_le_compat_l; [lra|]. replace ((1 + / 8 * u') * (1 + u' + 2 * (u' * u'))) with (1 + 9 / 8 * u' + (u' * u') * (17 / 8 + / 4 * u')) by field. assert ((u' * u') * (17 / 8 + / 4 * u') <= (/ 1000000 * u') * 3) by (apply Rmult_le_compat; lra). lra. }
  assert (VB : v <= xx * (1 + 25 / 10 * u')). { rewrite RV. apply Rle_trans with (x * (1 + 12 / 10 * u') * (x * (1 + 12 / 10 * u'))); [apply Rmult_le_compat; assumption|]. replace (x * (1 + 12 / 10 * u') * (x * (1 + 12 / 10 * u'))) with (xx * (1 + 24 / 10 * u' + 144 / 100 * (u' * u'))) by (unfold xx; field). apply Rmult_le_compat_l; lra. }
  assert (I1 : forall z w, (1 - u') * z <= w -> 0 <= w -> z <= w * (1 + 11 / 10 * u')). { intros z w Z W. apply Rmult_le_reg_l with (1 - u'); [lra|]. eapply Rle_trans; [exact Z|]. replace ((1 - u') * (w * (1 + 11 / 10 * u'))) with (w * (1 + / 10 * u' - 11 / 10 * (u' * u'))) by field. rewrite <- (Rmult_1_r w) at 1. apply Rmult_le_compat_l; [exact W|]. lra. }
  assert (SB : s <= xx * (1 + 38 / 10 * u')). { eapply Rle_trans; [apply (I1 s (v + e)); lra|]. apply Rle_trans with (xx * (1 + 2625 / 1000 * u') * (1 + 11 / 10 * u')); [apply Rmult_le_compat_r; lra|]. rewrite Rmult_assoc. apply Rmult_le_compat_l; [lra|]. replace ((1 + 2625 / 1000 * u') * (1 + 11 / 10 * u')) with (1 + (2625 / 1000 + 11 / 10) * u' + (2625 / 1000 * (11 / 10)) * (u' * u')) by ring. lra. }
  assert (AB : a <= (q + 2 * e) * (1 + 11 / 10 * u')) by (apply I1; lra).
  assert (H : (1 - d) * a <= (s + 2 * e) * (1 + 11 / 10 * u')). { apply Rle_trans with ((1 - d) * ((q + 2 * e) * (1 + 11 / 10 * u'))); [apply Rmult_le_compat_l; lra|]. rewrite <- Rmult_assoc. apply Rmult_le_compat_r; [lra|]. assert (0 <= d * e) by (apply Rmult_le_pos; lra). lra. }
  eapply Rle_trans; [exact H|]. apply Rle_trans with (xx * (1 + 41 / 10 * u') * (1 + 11 / 10 * u')); [apply Rmult_le_compat_r; lra|]. rewrite (Rmult_comm (1 + 8 * u')), Rmult_assoc. apply Rmult_le_compat_l; [lra|]. replace ((1 + 41 / 10 * u') * (1 + 11 / 10 * u')) with (1 + 52 / 10 * u' + 451 / 100 * (u' * u')) by field. lra.
Qed.
(** the quotient *)
Lemma quot_up u' e d t p c w r : 0 < u' <= / 1000000 -> 0 <= e -> 0 <= d <= / 40 -> 0 < p -> 8 * e <= u' * p -> e <= / 8 * u' -> 0 <= t ->
  (1 - d) * t <= (1 + 8 * u') * p -> c <= (1 + u') * ((1 + d) * ((1 + u') * t + 2 * e)) + e -> 0 <= c -> (1 - u') * p - e <= w -> r <= (1 + u') * (c / w) + e -> r <= 1 + 3 * d + 16 * u'.
Proof.
  intros [U0 U1] E0 [D0 D1] P0 EP EU T0 HT HC C0 HW HR. assert (UU : u' * u' <= / 1000000 * u') by (apply Rmult_le_compat_r; lra). assert (UU0 : 0 <= u' * u') by (apply Rle_0_sqr). assert (DD : d * d <= / 40 * d) by (apply Rmult_le_compat_r; lra). assert (DU : d * u' <= / 40 * u') by (apply Rmult_le_compat_r; lra). assert (DU0 : 0 <= d * u') by (apply Rmult_le_pos; lra). assert (DD0 : 0 <= d * d) by apply Rle_0_sqr.
  assert (T1 : t <= p * (1 + 105 / 100 * d + 83 / 10 * u')). { apply Rmult_le_reg_l with (1 - d); [lra|]. eapply Rle_trans; [exact HT|]. replace ((1 - d) * (p * (1 + 105 / 100 * d + 83 / 10 * u'))) with (p * (1 + 5 / 100 * d + 83 / 10 * u' - 105 / 100 * (d * d) - 83 / 10 * (d * u'))) by field. rewrite (Rmult_comm _ p). apply Rmult_le_compat_l; lra. }
  set (y := 1 + 105 / 100 * d + 83 / 10 * u') in *.
  assert (C1 : c <= p * (1 + 21 / 10 * d + 113 / 10 * u')). { eapply Rle_trans; [exact HC|]. apply Rle_trans with ((1 + u') * ((1 + d) * ((1 + u') * (p * y) + / 4 * (u' * p))) + / 8 * (u' * p)).
    - apply Rplus_le_compat; [|lra]. apply Rmult_le_compat_l; [lra|]. apply Rmult_le_compat_l; [lra|]. apply Rplus_le_compat; [apply Rmult_le_compat_l; lra|lra].
    - assert (Y1 : (1 + u') * y <= 1 + 105 / 100 * d + 94 / 10 * u') by (unfold y; lra). 
      replace ((1 + u') * ((1 + d) * ((1 + u') * (p * y) + / 4 * (u' * p))) + / 8 * (u' * p)) with (p * ((1 + u') * ((1 + d) * ((1 + u') * y + / 4 * u')) + / 8 * u')) by field. apply Rmult_le_compat_l; [lra|].
      assert (Y2 : (1 + d) * ((1 + u') * y + / 4 * u') <= 1 + 208 / 100 * d + 99 / 10 * u'). { apply Rle_trans with ((1 + d) * (1 + 105 / 100 * d + 965 / 100 * u')); [apply Rmult_le_compat_l; lra|]. lra. }
      apply Rle_trans with ((1 + u') * (1 + 208 / 100 * d + 99 / 10 * u') + / 8 * u'); [apply Rplus_le_compat_r, Rmult_le_compat_l; lra|]. lra. }
  assert (W1 : p * (1 - 12 / 10 * u') <= w) by lra. assert (WP : 0 < p * (1 - 12 / 10 * u')) by (apply Rmult_lt_0_compat; lra).
  assert (Q : c / w <= 1 + 21 / 10 * d + 126 / 10 * u'). { apply Rmult_le_reg_r with w; [lra|]. unfold Rdiv. rewrite Rmult_assoc, Rinv_l, Rmult_1_r by lra. eapply Rle_trans; [exact C1|]. apply Rle_trans with ((1 + 21 / 10 * d + 126 / 10 * u') * (p * (1 - 12 / 10 * u'))); [|apply Rmult_le_compat_l; lra].
    replace ((1 + 21 / 10 * d + 126 / 10 * u') * (p * (1 - 12 / 10 * u'))) with (p * (1 + 21 / 10 * d + 114 / 10 * u' - 252 / 100 * (d * u') - 1512 / 100 * (u' * u'))) by field. apply Rmult_le_compat_l; lra. }
  eapply Rle_trans; [exact HR|]. apply Rle_trans with ((1 + u') * (1 + 21 / 10 * d + 126 / 10 * u') + / 8 * u'); [apply Rplus_le_compat; [apply Rmult_le_compat_l; lra|exact EU]|]. lra.
Qed.

(** ** One sample *)
Definition centre64 (neg : bool) (l : list f64) : f64 := fdiv (fsum neg l) (of_usize (length l)).
Definition growth (n : nat) : R := (1 + u) ^ n - 1.
Lemma growth_small n : (Z.of_nat n <= 2 ^ 40)%Z -> 0 <= growth n <= / 40.
Proof.
  intros H. unfold growth. pose proof (pow_ge n) as G. split; [lra|]. assert (I : INR n <= 2 ^ 40) by (apply pow_small; exact H). pose proof u_pos as U. assert (K : INR n * u <= / 200). { eapply Rle_trans; [apply Rmult_le_compat_r; [lra|exact I]|]. unfold u. lra. }
  assert ((1 + u) ^ n <= bb ^ n) by (apply pow_incr; unfold bb; lra). pose proof (bb_lin n ltac:(lra)). lra.
Qed.
Lemma eta_sq x : bpow radix2 (-800) <= x -> 8 * eta <= u * x.
Proof.
  intros H. pose proof u_pos as U. assert (K : u * bpow radix2 (-800) <= u * x) by (apply Rmult_le_compat_l; lra). eapply Rle_trans; [|exact K]. unfold eta. change u with (bpow radix2 (-53)). rewrite <- bpow_plus. replace (8 * (/ 2 * bpow radix2 (-1074))) with (bpow radix2 2 * bpow radix2 (-1074)) by (change (bpow radix2 2) with 4; lra). rewrite <- bpow_plus. apply bpow_le. lia.
Qed.
Lemma rnd_low x : 0 <= x -> (1 - u) * x <= rnd x + eta.
Proof. intros H. pose proof (rnd_abs_err x) as E. rewrite (Rabs_pos_eq x) in E by exact H. apply Rabs_le_inv in E. lra. Qed.
Lemma rnd_high x : Rabs (rnd x) <= (1 + u) * Rabs x + eta.
Proof. pose proof (rnd_abs_err x) as E. replace (rnd x) with ((rnd x - x) + x) by ring. eapply Rle_trans; [apply Rabs_triang|]. lra. Qed.
Lemma growth_less n : (1 + u) ^ (n - 1) - 1 <= growth n.
Proof. unfold growth. assert ((1 + u) ^ (n - 1) <= (1 + u) ^ n) by (apply Rle_pow; [pose proof u_pos; lra|lia]). lra. Qed.
Lemma sqrt_fin v : 0 < val (fsqrt v) -> fin v.
Proof. destruct v as [b|b| |b m e E]; intros H; try reflexivity; exfalso; [destruct b|]; exact (Rlt_irrefl 0 H). Qed.
Lemma val_fin v : 0 < val v -> fin v.
Proof. destruct v as [b|b| |b m e E]; intros H; try reflexivity; exfalso; exact (Rlt_irrefl 0 H). Qed.
Definition spread (m : f64) (l : list f64) : R := sm (fun x => val (fsub x m) * val (fsub x m)) l.
Lemma std_up neg l s : standard_deviation64 neg l = Ret s -> (Z.of_nat (length l) <= 2 ^ 40)%Z -> bpow radix2 (-400) <= val s ->
  (1 - growth (length l)) * (spread (centre64 neg l) l / (INR (length l) - 1)) <= (1 + 8 * u) * (val s * val s).
Proof.
  intros H N BS. unfold standard_deviation64 in H. destruct (Nat.ltb_spec 1 (length l)) as [L2|]; [|discriminate H]. cbn [assertb] in H. unfold sample_variance64, mean64, nonempty in H. destruct (Nat.eqb_spec (length l) 0) as [|NZ]; [lia|]. cbn [assertb negb bind rmap] in H. fold (centre64 neg l) in H. set (m := centre64 neg l) in *.
  set (v := fdiv (fsum neg (map (fun x => sq64 (fsub x m)) l)) (of_usize (length l - 1))) in *. assert (ES : s = fsqrt v) by (injection H; intros <-; reflexivity). subst s. clear H.
  assert (V400 : bpow radix2 (-800) <= val (fsqrt v) * val (fsqrt v)). { change (-800)%Z with (-400 + -400)%Z. rewrite bpow_plus. pose proof (bpow_ge_0 radix2 (-400)). apply Rmult_le_compat; assumption. }
  assert (S0 : 0 < val (fsqrt v)) by (pose proof (bpow_gt_0 radix2 (-400)); lra).
  assert (FV : fin v) by (apply sqrt_fin, S0).
  assert (VS : val (fsqrt v) = rnd (sqrt (val v))) by (apply (Bsqrt_correct 53 1024 p53 pe53 mode_NE v)).
  assert (SM : small (length l)) by (unfold small; lia). assert (SM1 : small (length l - 1)) by (unfold small; lia). destruct (usize_R _ SM1) as [FD VD]. rewrite minus_INR in VD by lia. change (INR 1) with 1 in VD. assert (N2 : 2 <= INR (length l)) by (change 2 with (INR 2); apply le_INR; lia).
  destruct (fdiv_fin (fsum neg (map (fun x => sq64 (fsub x m)) l)) (of_usize (length l - 1)) ltac:(rewrite VD; lra) FV) as (FS & VV & _). fold v in VV. rewrite VD in VV.
  destruct (sum_error neg _ FS) as [FA E]. rewrite map_length in E. set (sq := map (fun x => sq64 (fsub x m)) l) in *. set (I := / (INR (length l) - 1)). assert (I0 : 0 < I) by (apply Rinv_0_lt_compat; lra).
  assert (EX : exact sq = sm (fun x => val (sq64 (fsub x m))) l) by (unfold exact, sm, sq; rewrite map_map; reflexivity). assert (MG : mag sq = sm (fun x => Rabs (val (sq64 (fsub x m)))) l) by (unfold mag, sm, sq; rewrite map_map; reflexivity).
  assert (SQ : forall x, In x l -> val (sq64 (fsub x m)) = rnd (val (fsub x m) * val (fsub x m))). { intros x X. assert (FX : fin (sq64 (fsub x m))) by (apply (proj1 (Forall_forall _ _) FA); unfold sq; apply in_map_iff; exists x; auto). apply (fmul_fin _ _ FX). }
  assert (PS : forall x, In x l -> 0 <= val (sq64 (fsub x m))) by (intros x X; rewrite (SQ x X); apply rnd_ge; [apply generic_format_0|apply Rle_0_sqr]).
  assert (MQ : mag sq = exact sq) by (rewrite EX, MG; apply sm_ext; intros x X; apply Rabs_pos_eq, PS, X). set (Q := exact sq) in *. rewrite MQ in E. assert (Q0 : 0 <= Q) by (rewrite EX; apply sm_pos, PS).
  pose proof u_pos as U. pose proof u_tiny as UT. pose proof eta_pos as E0. set (S := val (fsum neg sq)) in *. pose proof (growth_less (length l)) as GL. destruct (growth_small _ N) as [G0 G1]. set (g := growth (length l)) in *.
  assert (SL : (1 - g) * Q <= S). { assert (((1 + u) ^ (length l - 1) - 1) * Q <= g * Q) by (apply Rmult_le_compat_r; assumption). apply Rabs_le_inv in E. lra. }
  assert (S1 : 0 <= S) by (assert (0 <= (1 - g) * Q) by (apply Rmult_le_pos; lra); lra).
  assert (AQ : (1 - u) * spread m l <= Q + INR (length l) * eta). { rewrite EX. unfold spread. rewrite <- (sm_const eta l). replace ((1 - u) * sm (fun x => val (fsub x m) * val (fsub x m)) l) with (sm (fun x => (1 - u) * (val (fsub x m) * val (fsub x m)) + 0 * 0) l) by (rewrite sm_lin; ring). replace (sm (fun x => val (sq64 (fsub x m))) l + sm (fun _ => eta) l) with (sm (fun x => 1 * val (sq64 (fsub x m)) + 1 * eta) l) by (rewrite sm_lin; ring).
    apply sm_le. intros x X. rewrite (SQ x X). pose proof (rnd_low (val (fsub x m) * val (fsub x m)) (Rle_0_sqr _)). lra. }
  assert (NI : INR (length l) * I <= 2). { apply Rmult_le_reg_r with (INR (length l) - 1); [lra|]. unfold I. rewrite Rmult_assoc, Rinv_l by lra. lra. }
  apply (var_up u eta g _ (Q * I) (S * I) (val v) (val (fsqrt v))); try lra.
  - apply Rmult_le_pos; lra.
  - apply eta_sq, V400.
  - apply eta_sq. eapply Rle_trans; [apply (bpow_le radix2 (-800) (-400)); lia|exact BS].
  - unfold Rdiv. fold I. rewrite <- Rmult_assoc. apply Rle_trans with ((Q + INR (length l) * eta) * I); [apply Rmult_le_compat_r; lra|]. assert (INR (length l) * I * eta <= 2 * eta) by (apply Rmult_le_compat_r; lra). lra.
  - rewrite <- Rmult_assoc. apply Rmult_le_compat_r; lra.
  - rewrite VV. apply rnd_low. apply Rmult_le_pos; [exact S1|fold I; lra].
  - rewrite VV. apply rnd_ge; [apply generic_format_0|]. apply Rmult_le_pos; [exact S1|fold I; lra].
  - rewrite VS. apply rnd_low, sqrt_pos.
Qed.

(** ** The correlation *)
(** A correlation above one is an effect of rounding: it exceeds one by about 3 n + 16 units of
    2^-53 at most, unless a standard deviation is extreme. *)
Theorem correlation64_bound neg l k sx sy r : correlation64 neg l k = Ret r -> fin r -> (Z.of_nat (length l) <= 2 ^ 40)%Z ->
  standard_deviation64 neg l = Ret sx -> standard_deviation64 neg k = Ret sy ->
  bpow radix2 (-400) <= val sx <= bpow radix2 500 -> bpow radix2 (-400) <= val sy <= bpow radix2 500 ->
  Rabs (val r) <= 1 + 3 * growth (length l) + 16 * u.
Proof.
  intros H FR N HX HY [BX TX] [BY TY]. unfold correlation64 in H. destruct (covariance64 neg l k) as [c| |] eqn:EC; try discriminate H. rewrite HX, HY in H. cbn [bind] in H. destruct (negb (feq sx zero || feq sy zero)); [|discriminate H]. cbn [assertb] in H. assert (ER : r = fdiv c (fmul sx sy)) by (injection H; intros <-; reflexivity). subst r. clear H.
  unfold covariance64 in EC. destruct (Nat.eqb_spec (length l) (length k)) as [L|]; [|discriminate EC]. destruct (Nat.ltb_spec 1 (length l)) as [L2|]; [|discriminate EC]. cbn [assertb] in EC.
  pose proof (std_up neg l sx HX N BX) as AX. pose proof (std_up neg k sy HY ltac:(rewrite <- L; exact N) BY) as AY. rewrite <- L in AY. unfold centre64 in AX, AY. rewrite <- L in AY.
  set (n := of_usize (length l)) in *. set (mx := fdiv (fsum neg l) n) in *. set (my := fdiv (fsum neg k) n) in *. assert (E : c = fdiv (fsum neg (map (dev64 mx my) (combine l k))) (fsub n one)) by (injection EC; intros <-; reflexivity). clear EC HX HY.
  set (x := val sx) in *. set (y := val sy) in *. pose proof (bpow_gt_0 radix2 (-400)) as W. assert (X0 : 0 < x) by lra. assert (Y0 : 0 < y) by lra. set (p := x * y). assert (P0 : 0 < p) by (apply Rmult_lt_0_compat; assumption).
  assert (P8 : bpow radix2 (-800) <= p) by (change (-800)%Z with (-400 + -400)%Z; rewrite bpow_plus; apply Rmult_le_compat; lra).
  assert (FX : fin sx) by (apply val_fin, X0). assert (FY : fin sy) by (apply val_fin, Y0).
  assert (BP : Rabs (rnd (val sx * val sy)) < fmaxR). { apply below. fold x y p. rewrite Rabs_pos_eq by lra. apply Rle_trans with (bpow radix2 500 * bpow radix2 500); [apply Rmult_le_compat; lra|]. rewrite <- bpow_plus. apply bpow_le. lia. }
  destruct (fmul_R _ _ FX FY BP) as [FW VW]. fold x y p in VW. pose proof u_pos as U. pose proof u_tiny as UT. pose proof eta_pos as E0. pose proof (eta_sq p P8) as EP.
  assert (EU : eta <= / 8 * u). { pose proof (eta_sq 1 ltac:(change 1 with (bpow radix2 0); apply bpow_le; lia)). lra. }
  pose proof (rnd_low p (Rlt_le _ _ P0)) as WL. rewrite <- VW in WL. set (w := val (fmul sx sy)) in *. assert (UP : u * p <= / 1000000 * p) by (apply Rmult_le_compat_r; lra). assert (W0 : 0 < w) by lra.
  destruct (fdiv_fin c (fmul sx sy) ltac:(fold w; lra) FR) as (FC & VR & _). fold w in VR. pose proof (rnd_high (val c / w)) as RH. rewrite <- VR in RH. unfold Rdiv in RH. rewrite Rabs_mult, (Rabs_pos_eq (/ w)) in RH by (left; apply Rinv_0_lt_compat, W0).
  assert (SM : small (length l)) by (unfold small; lia). destruct (usize_R _ SM) as [FN VN]. fold n in FN, VN. assert (N2 : 2 <= INR (length l)) by (change 2 with (INR 2); apply le_INR; lia).
  assert (RI : rnd (INR (length l) - 1) = INR (length l) - 1). { apply rnd_id. rewrite INR_IZR_INZ. replace (IZR (Z.of_nat (length l)) - 1) with (IZR (Z.of_nat (length l) - 1)) by (rewrite minus_IZR; reflexivity). apply int_fmt. unfold small in SM. lia. }
  assert (BI : Rabs (rnd (val n - val one)) < fmaxR). { rewrite VN, (proj2 one_R), RI. rewrite Rabs_pos_eq by lra. pose proof (val_lt n) as B. rewrite VN, Rabs_pos_eq in B by lra. lra. }
  destruct (fsub_R _ _ FN (proj1 one_R) BI) as [_ VD]. rewrite VN, (proj2 one_R), RI in VD. rewrite E in FC.
  destruct (fdiv_fin _ (fsub n one) ltac:(rewrite VD; lra) FC) as (FS & VC & _). rewrite <- E, VD in VC. set (I := / (INR (length l) - 1)) in *. assert (I0 : 0 < I) by (apply Rinv_0_lt_compat; lra).
  destruct (sum_error neg _ FS) as [FA SE]. assert (LC : length (map (dev64 mx my) (combine l k)) = length l) by (rewrite map_length, combine_length; lia). rewrite LC in SE. set (ds := map (dev64 mx my) (combine l k)) in *.
  destruct (growth_small _ N) as [G0 G1]. pose proof (growth_less (length l)) as GL. set (g := growth (length l)) in *. set (T := sm (fun q => Rabs (val (fsub (fst q) mx)) * Rabs (val (fsub (snd q) my))) (combine l k)).
  assert (T0 : 0 <= T) by (apply sm_pos; intros; apply Rmult_le_pos; apply Rabs_pos).
  assert (MT : mag ds <= (1 + u) * T + INR (length l) * eta).
  { assert (MG : mag ds = sm (fun q => Rabs (val (dev64 mx my q))) (combine l k)) by (unfold mag, sm, ds; rewrite map_map; reflexivity). rewrite MG. replace (length l) with (length (combine l k)) by (rewrite combine_length; lia). rewrite <- (sm_const eta (combine l k)). unfold T.
    replace ((1 + u) * sm (fun q => Rabs (val (fsub (fst q) mx)) * Rabs (val (fsub (snd q) my))) (combine l k) + sm (fun _ => eta) (combine l k)) with (sm (fun q => (1 + u) * (Rabs (val (fsub (fst q) mx)) * Rabs (val (fsub (snd q) my))) + 1 * eta) (combine l k)) by (rewrite sm_lin; ring).
    apply sm_le. intros q IQ. assert (FQ : fin (dev64 mx my q)) by (apply (proj1 (Forall_forall _ _) FA); unfold ds; apply in_map, IQ). destruct (fmul_fin _ _ FQ) as (_ & _ & VQ & _). unfold dev64. rewrite VQ, <- Rabs_mult, Rmult_1_l. apply rnd_high. }
  assert (M0 : 0 <= mag ds) by apply mag_pos. set (S := val (fsum neg ds)) in *.
  assert (SB : Rabs S <= (1 + g) * mag ds). { assert (XM : Rabs (exact ds) <= mag ds) by (apply (sm_abs val ds)). replace S with ((S - exact ds) + exact ds) by ring. eapply Rle_trans; [apply Rabs_triang|]. assert (((1 + u) ^ (length l - 1) - 1) * mag ds <= g * mag ds) by (apply Rmult_le_compat_r; assumption). lra. }
  assert (NI : INR (length l) * I <= 2). { apply Rmult_le_reg_r with (INR (length l) - 1); [lra|]. unfold I. rewrite Rmult_assoc, Rinv_l by lra. lra. }
  apply (quot_up u eta g (T * I) p (Rabs (val c)) w (Rabs (val (fdiv c (fmul sx sy))))); try lra.
  - apply Rmult_le_pos; lra.
  - assert (CS : T * T <= spread mx l * spread my k). { pose proof (cauchy (fun q => Rabs (val (fsub (fst q) mx))) (fun q => Rabs (val (fsub (snd q) my))) (combine l k)) as C. cbv beta in C. fold T in C. assert (AB : forall z, Rabs z * Rabs z = z * z) by (intros z; rewrite <- Rabs_mult; apply Rabs_pos_eq, Rle_0_sqr).
      rewrite (sm_combine_fst (fun a => Rabs (val (fsub a mx)) * Rabs (val (fsub a mx))) l k L), (sm_combine_snd (fun a => Rabs (val (fsub a my)) * Rabs (val (fsub a my))) l k L) in C. unfold spread. rewrite (sm_ext (fun a => val (fsub a mx) * val (fsub a mx)) (fun a => Rabs (val (fsub a mx)) * Rabs (val (fsub a mx)))), (sm_ext (fun a => val (fsub a my) * val (fsub a my)) (fun a => Rabs (val (fsub a my)) * Rabs (val (fsub a my)))) by (intros; symmetry; apply AB). exact C. }
    apply Rsqr_incr_0_var; [|apply Rmult_le_pos; lra]. unfold Rsqr. unfold Rdiv in AX, AY. fold I in AX, AY. 
    assert (SX : 0 <= spread mx l) by (apply sm_pos; intros; apply Rle_0_sqr). assert (SY : 0 <= spread my k) by (apply sm_pos; intros; apply Rle_0_sqr).
    apply Rle_trans with ((1 - g) * (spread mx l * I) * ((1 - g) * (spread my k * I))).
    + replace ((1 - g) * (T * I) * ((1 - g) * (T * I))) with ((1 - g) * I * ((1 - g) * I) * (T * T)) by ring. replace ((1 - g) * (spread mx l * I) * ((1 - g) * (spread my k * I))) with ((1 - g) * I * ((1 - g) * I) * (spread mx l * spread my k)) by ring. apply Rmult_le_compat_l; [apply Rle_0_sqr|exact CS].
    + apply Rle_trans with ((1 + 8 * u) * (x * x) * ((1 + 8 * u) * (y * y))); [|apply Req_le; unfold p; ring]. apply Rmult_le_compat; [| |exact AX|exact AY]; (apply Rmult_le_pos; [lra|apply Rmult_le_pos; lra]).
  - rewrite VC. eapply Rle_trans; [apply rnd_high|]. apply Rplus_le_compat_r, Rmult_le_compat_l; [lra|]. unfold Rdiv. fold I. rewrite Rabs_mult, (Rabs_pos_eq I) by lra. apply Rle_trans with ((1 + g) * mag ds * I); [apply Rmult_le_compat_r; lra|]. rewrite Rmult_assoc. apply Rmult_le_compat_l; [lra|]. apply Rle_trans with (((1 + u) * T + INR (length l) * eta) * I); [apply Rmult_le_compat_r; lra|]. assert (INR (length l) * I * eta <= 2 * eta) by (apply Rmult_le_compat_r; lra). lra.
  - apply Rabs_pos.
Qed.
Print Assumptions correlation64_bound.
Example correlation64_nv : match correlation64 false [one; two; lit 6 0] [two; two; lit 8 0], standard_deviation64 false [one; two; lit 6 0] with Ret r, Ret s => (is_finite r && fle one s && fle s (lit 3 0))%bool | _, _ => false end = true.
Proof. vm_compute. reflexivity. Qed.
(** Without the lower bound on the deviations the correlation can be 1.2: the products underflow. *)
Theorem correlation64_tiny_refuted : exists l k, Forall fin l /\ Forall fin k /\ forall neg, exists r, correlation64 neg l k = Ret r /\ (is_finite r && fle (fdiv (lit 119 0) (lit 100 0)) r)%bool = true.
Proof.
  exists [lit 801 (-546); lit (-801) (-546)], [lit 833 (-546); lit (-833) (-546)]. split; [repeat constructor|]. split; [repeat constructor|].
  intros neg. assert (H : match correlation64 neg [lit 801 (-546); lit (-801) (-546)] [lit 833 (-546); lit (-833) (-546)] with Ret r => (is_finite r && fle (fdiv (lit 119 0) (lit 100 0)) r)%bool | _ => false end = true) by (destruct neg; vm_compute; reflexivity).
  destruct (correlation64 neg _ _) as [r| |]; try discriminate H. exists r. split; [reflexivity|exact H].
Qed.
Print Assumptions correlation64_tiny_refuted.

(** ** A sample with itself *)
Lemma self_real u' e q s w r : 0 < u' <= / 1000000 -> 0 <= e -> 0 <= q -> 0 < s -> 8 * e <= u' * s -> 8 * e <= u' * (s * s) -> e <= / 8 * u' ->
  Rabs (s - q) <= u' * q + e -> Rabs (w - s * s) <= u' * (s * s) + e -> Rabs (r - q * q / w) <= u' * Rabs (q * q / w) + e -> Rabs (r - 1) <= 5 * u'.
Proof.
  intros [U0 U1] E0 Q0 S0 ES EP EU HQ HW HR. assert (UU : u' * u' <= / 1000000 * u') by (apply Rmult_le_compat_r; lra). assert (UU0 : 0 <= u' * u') by (apply Rle_0_sqr). apply Rabs_le_inv in HQ, HW. set (p := s * s) in *. assert (P0 : 0 < p) by (apply Rmult_lt_0_compat; lra).
  assert (QU : q <= s * (1 + 12 / 10 * u')). { apply Rmult_le_reg_l with (1 - u'); [lra|]. apply Rle_trans with (s * (1 + / 8 * u')); [lra|]. replace ((1 - u') * (s * (1 + 12 / 10 * u'))) with (s * (1 + / 5 * u' - 12 / 10 * (u' * u'))) by field. apply Rmult_le_compat_l; lra. }
  assert (QL : s * (1 - 12 / 10 * u') <= q). { apply Rmult_le_reg_l with (1 + u'); [lra|]. apply Rle_trans with (s * (1 - / 8 * u')); [|lra]. replace ((1 + u') * (s * (1 - 12 / 10 * u'))) with (s * (1 - / 5 * u' - 12 / 10 * (u' * u'))) by field. apply Rmult_le_compat_l; lra. }
  assert (VU : q * q <= p * (1 + 25 / 10 * u')). { apply Rle_trans with (s * (1 + 12 / 10 * u') * (s * (1 + 12 / 10 * u'))); [apply Rmult_le_compat; assumption|]. replace (s * (1 + 12 / 10 * u') * (s * (1 + 12 / 10 * u'))) with (p * (1 + 24 / 10 * u' + 144 / 100 * (u' * u'))) by (unfold p; field). apply Rmult_le_compat_l; lra. }
  assert (VL : p * (1 - 24 / 10 * u') <= q * q). { apply Rle_trans with (s * (1 - 12 / 10 * u') * (s * (1 - 12 / 10 * u'))); [|apply Rmult_le_compat; try assumption; apply Rmult_le_pos; lra]. replace (s * (1 - 12 / 10 * u') * (s * (1 - 12 / 10 * u'))) with (p * (1 - 24 / 10 * u' + 144 / 100 * (u' * u'))) by (unfold p; field). apply Rmult_le_compat_l; lra. }
  assert (WL : p * (1 - 1125 / 1000 * u') <= w) by lra. assert (WU : w <= p * (1 + 1125 / 1000 * u')) by lra. assert (W0 : 0 < w) by (assert (0 < p * (1 - 1125 / 1000 * u')) by (apply Rmult_lt_0_compat; lra); lra).
  set (z := q * q / w) in *. assert (ZW : z * w = q * q) by (unfold z; field; lra).
  assert (ZU : z <= 1 + 37 / 10 * u'). { apply Rmult_le_reg_r with w; [lra|]. rewrite ZW. eapply Rle_trans; [exact VU|]. apply Rle_trans with ((1 + 37 / 10 * u') * (p * (1 - 1125 / 1000 * u'))); [|apply Rmult_le_compat_l; lra]. replace ((1 + 37 / 10 * u') * (p * (1 - 1125 / 1000 * u'))) with (p * (1 + 2575 / 1000 * u' - 37 / 10 * (1125 / 1000) * (u' * u'))) by field. apply Rmult_le_compat_l; lra. }
  assert (ZL : 1 - 37 / 10 * u' <= z). { apply Rmult_le_reg_r with w; [lra|]. rewrite ZW. eapply Rle_trans; [|exact VL]. apply Rle_trans with ((1 - 37 / 10 * u') * (p * (1 + 1125 / 1000 * u'))); [apply Rmult_le_compat_l; lra|]. replace ((1 - 37 / 10 * u') * (p * (1 + 1125 / 1000 * u'))) with (p * (1 - 2575 / 1000 * u' - 37 / 10 * (1125 / 1000) * (u' * u'))) by field. apply Rmult_le_compat_l; lra. }
  rewrite (Rabs_pos_eq z) in HR by lra. apply Rabs_le_inv in HR. assert (u' * z <= u' * (1 + 37 / 10 * u')) by (apply Rmult_le_compat_l; lra). apply Rabs_le. lra.
Qed.
(** The correlation of a sample with itself is one up to five units. *)
Theorem self_correlation64 neg l s r : correlation64 neg l l = Ret r -> small (length l) -> standard_deviation64 neg l = Ret s ->
  bpow radix2 (-400) <= val s <= bpow radix2 500 -> fin r -> Rabs (val r - 1) <= 5 * u.
Proof.
  intros H SM HS [BS TS] FR. unfold correlation64 in H. destruct (covariance64 neg l l) as [c| |] eqn:EC; try discriminate H. rewrite HS in H. cbn [bind] in H. destruct (negb (feq s zero || feq s zero)); [|discriminate H]. cbn [assertb] in H. assert (ER : r = fdiv c (fmul s s)) by (injection H; intros <-; reflexivity). subst r. clear H.
  unfold covariance64 in EC. rewrite Nat.eqb_refl in EC. destruct (Nat.ltb_spec 1 (length l)) as [L2|]; [|discriminate EC]. cbn [assertb] in EC. unfold standard_deviation64 in HS. destruct (Nat.ltb_spec 1 (length l)) as [_|]; [|lia]. cbn [assertb] in HS. unfold sample_variance64, mean64, nonempty in HS. destruct (Nat.eqb_spec (length l) 0) as [|NZ]; [lia|]. cbn [assertb negb bind rmap] in HS.
  set (n := of_usize (length l)) in *. set (m := fdiv (fsum neg l) n) in *. rewrite dev_square in HS. set (S := fsum neg (map (dev64 m m) (combine l l))) in *. assert (E : c = fdiv S (fsub n one)) by (injection EC; intros <-; reflexivity). clear EC. set (v := fdiv S (of_usize (length l - 1))) in *. assert (ES : s = fsqrt v) by (injection HS; intros <-; reflexivity). clear HS.
  pose proof (bpow_gt_0 radix2 (-400)) as W. assert (S0 : 0 < val s) by lra. assert (FV : fin v) by (apply sqrt_fin; rewrite <- ES; exact S0). assert (VS : val s = rnd (sqrt (val v))) by (rewrite ES; apply (Bsqrt_correct 53 1024 p53 pe53 mode_NE v)).
  assert (N2 : 2 <= INR (length l)) by (change 2 with (INR 2); apply le_INR; lia). destruct (usize_R _ SM) as [FN VN]. fold n in FN, VN. assert (SM1 : small (length l - 1)) by (unfold small in *; lia). destruct (usize_R _ SM1) as [_ VD1]. rewrite minus_INR in VD1 by lia. change (INR 1) with 1 in VD1.
  assert (RI : rnd (INR (length l) - 1) = INR (length l) - 1). { apply rnd_id. rewrite INR_IZR_INZ. replace (IZR (Z.of_nat (length l)) - 1) with (IZR (Z.of_nat (length l) - 1)) by (rewrite minus_IZR; reflexivity). apply int_fmt. unfold small in SM. lia. }
  assert (BI : Rabs (rnd (val n - val one)) < fmaxR). { rewrite VN, (proj2 one_R), RI. rewrite Rabs_pos_eq by lra. pose proof (val_lt n) as B. rewrite VN, Rabs_pos_eq in B by lra. lra. }
  destruct (fsub_R _ _ FN (proj1 one_R) BI) as [_ VD]. rewrite VN, (proj2 one_R), RI in VD.
  destruct (fdiv_fin S (of_usize (length l - 1)) ltac:(rewrite VD1; lra) FV) as (FS & VV & _). fold v in VV.
  assert (FX : fin s) by (apply val_fin, S0). pose proof u_pos as U. pose proof u_tiny as UT. pose proof eta_pos as E0.
  assert (P8 : bpow radix2 (-800) <= val s * val s) by (change (-800)%Z with (-400 + -400)%Z; rewrite bpow_plus; apply Rmult_le_compat; lra).
  assert (BP : Rabs (rnd (val s * val s)) < fmaxR). { apply below. rewrite Rabs_pos_eq by apply Rle_0_sqr. apply Rle_trans with (bpow radix2 500 * bpow radix2 500); [apply Rmult_le_compat; lra|]. rewrite <- bpow_plus. apply bpow_le. lia. }
  destruct (fmul_R _ _ FX FX BP) as [FW VW]. pose proof (eta_sq _ P8) as EP. assert (EU : eta <= / 8 * u). { pose proof (eta_sq 1 ltac:(change 1 with (bpow radix2 0); apply bpow_le; lia)). lra. }
  assert (P0 : 0 < val s * val s) by (apply Rmult_lt_0_compat; lra). pose proof (rnd_low _ (Rlt_le _ _ P0)) as WL. rewrite <- VW in WL. assert (u * (val s * val s) <= / 1000000 * (val s * val s)) by (apply Rmult_le_compat_r; lra). assert (W0 : 0 < val (fmul s s)) by lra.
  destruct (fdiv_fin c (fmul s s) ltac:(lra) FR) as (FC & VR & _). rewrite E in FC. destruct (fdiv_fin S (fsub n one) ltac:(rewrite VD; lra) FC) as (_ & VC & _). rewrite <- E, VD in VC. rewrite VD1 in VV.
  assert (VCV : val c = val v) by (rewrite VC, VV; reflexivity). rewrite VCV in VR.
  assert (V0 : 0 <= val v). { destruct (Rle_or_lt 0 (val v)) as [K|K]; [exact K|]. exfalso. rewrite (sqrt_neg_0 (val v) (Rlt_le _ _ K)) in VS. unfold rnd in VS. rewrite round_0 in VS by typeclasses eauto. lra. }
  assert (VQ : val v = sqrt (val v) * sqrt (val v)) by (rewrite sqrt_sqrt; lra).
  apply (self_real u eta (sqrt (val v)) (val s) (val (fmul s s)) (val (fdiv c (fmul s s)))); try lra.
  - apply sqrt_pos.
  - apply eta_sq. eapply Rle_trans; [apply (bpow_le radix2 (-800) (-400)); lia|exact BS].
  - rewrite VS. pose proof (rnd_abs_err (sqrt (val v))) as K. rewrite (Rabs_pos_eq (sqrt (val v))) in K by apply sqrt_pos. exact K.
  - rewrite VW. pose proof (rnd_abs_err (val s * val s)) as K. rewrite (Rabs_pos_eq (val s * val s)) in K by lra. exact K.
  - rewrite <- VQ. rewrite VR. apply rnd_abs_err.
Qed.
Print Assumptions self_correlation64.
