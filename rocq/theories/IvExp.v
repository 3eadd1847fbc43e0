(** The two series expansions of the normalised Black function (implied_volatility.rs
    regions 1 and 2) and the accuracy of [normalised_black_call]. *)
From Coq Require Import Reals Lra Lia Psatz Arith Bool.
From Coquelicot Require Import Coquelicot.
From Verif Require Import Res InterpModel SpecialFns BsmProofs IvModel IvMath.
Open Scope R_scope.

Lemma Rltb_spec a b : reflect (a < b) (Rltb a b).
Proof. unfold Rltb. destruct (Rlt_dec a b); constructor; assumption. Qed.
Lemma Rleb_spec a b : reflect (a <= b) (Rleb a b).
Proof. unfold Rleb. destruct (Rle_dec a b); constructor; assumption. Qed.
Lemma Reqb_spec a b : reflect (a = b) (Reqb a b).
Proof. unfold Reqb. destruct (Req_EM_T a b); constructor; assumption. Qed.

(** [Y] through the scaled complementary error function *)
Lemma erfcx_Y z : erfcx (- (/ sqrt 2) * z) = 2 / sqrt (2 * PI) * Y z.
Proof.
  unfold erfcx, Y, ncdf, npdf. pose proof sqrt2_pos. pose proof sqrt_2PI_pos. replace (- / sqrt 2 * z) with (- z / sqrt 2) by (field; lra).
  replace ((- z / sqrt 2) ^ 2) with (/ 2 * z ^ 2). 2:{ replace ((- z / sqrt 2) ^ 2) with (z ^ 2 / (sqrt 2 * sqrt 2)) by (field; lra). rewrite sqrt_sqrt by lra. field. }
  replace (- / 2 * z ^ 2) with (- (/ 2 * z ^ 2)) by ring. rewrite exp_Ropp. pose proof (exp_pos (/ 2 * z ^ 2)). field. lra.
Qed.

Lemma INR_fact_S n : INR (fact (S n)) = INR (S n) * INR (fact n).
Proof. rewrite fact_simpl. apply mult_INR. Qed.
Lemma fact_values : INR (fact 1) = 1 /\ INR (fact 3) = 6 /\ INR (fact 5) = 120 /\ INR (fact 7) = 5040 /\ INR (fact 9) = 362880 /\
  INR (fact 11) = 39916800 /\ INR (fact 13) = 6227020800 /\ INR (fact 14) = 87178291200.
Proof.
  assert (f0 : INR (fact 0) = 1) by reflexivity.
  assert (f1 : INR (fact 1) = 1) by (rewrite INR_fact_S, f0; simpl; ring). assert (f2 : INR (fact 2) = 2) by (rewrite INR_fact_S, f1; simpl; ring).
  assert (f3 : INR (fact 3) = 6) by (rewrite INR_fact_S, f2; simpl; ring). assert (f4 : INR (fact 4) = 24) by (rewrite INR_fact_S, f3; simpl; ring).
  assert (f5 : INR (fact 5) = 120) by (rewrite INR_fact_S, f4; simpl; ring). assert (f6 : INR (fact 6) = 720) by (rewrite INR_fact_S, f5; simpl; ring).
  assert (f7 : INR (fact 7) = 5040) by (rewrite INR_fact_S, f6; simpl; ring). assert (f8 : INR (fact 8) = 40320) by (rewrite INR_fact_S, f7; simpl; ring).
  assert (f9 : INR (fact 9) = 362880) by (rewrite INR_fact_S, f8; simpl; ring). assert (f10 : INR (fact 10) = 3628800) by (rewrite INR_fact_S, f9; simpl; ring).
  assert (f11 : INR (fact 11) = 39916800) by (rewrite INR_fact_S, f10; simpl; ring). assert (f12 : INR (fact 12) = 479001600) by (rewrite INR_fact_S, f11; simpl; ring).
  assert (f13 : INR (fact 13) = 6227020800) by (rewrite INR_fact_S, f12; simpl; ring). assert (f14 : INR (fact 14) = 87178291200) by (rewrite INR_fact_S, f13; simpl; ring).
  auto 20.
Qed.

(** ** Region 2: expansion in [t] *)
(** odd part of [Y] around [h], and its derivatives in [t] *)
Definition Dd (h : R) (k : nat) (t : R) : R := Yd k (h + t) - (-1) ^ k * Yd k (h - t).
Lemma Dd_derive h k t : is_derive (Dd h k) t (Dd h (S k) t).
Proof.
  unfold Dd.
  assert (A : is_derive (fun t => Yd k (h + t)) t (Yd (S k) (h + t))).
  { eapply isd_eq; [apply (is_derive_comp (Yd k) (fun t => h + t) t); [apply Yd_derive|apply d_add; [apply d_const|apply d_id]]|].
    unfold scal; simpl; unfold mult; simpl. ring. }
  assert (B : is_derive (fun t => Yd k (h - t)) t (- Yd (S k) (h - t))).
  { eapply isd_eq; [apply (is_derive_comp (Yd k) (fun t => h - t) t); [apply Yd_derive|apply d_sub; [apply d_const|apply d_id]]|].
    unfold scal; simpl; unfold mult; simpl. ring. }
  eapply isd_eq; [apply d_sub; [exact A|apply d_mul; [apply d_const|exact B]]|]. cbv beta. change ((-1) ^ S k) with (-1 * (-1) ^ k). ring.
Qed.
(** the polynomial of the code is the Taylor polynomial of degree 14 *)
Lemma small_t_sum h t : small_t_expansion_sum t (1 + h * Y h) (t * t) (h * h) =
  sum_f_R0 (fun k => t ^ k / INR (fact k) * Dd h k 0) 14.
Proof.
  unfold Dd. rewrite Rplus_0_r, Rminus_0_r.
  unfold small_t_expansion_sum. set (y := Y h).
  assert (F : forall k, t ^ k / INR (fact k) * (Yd k h - (-1) ^ k * Yd k h) = (1 - (-1) ^ k) * t ^ k * Yd k h / INR (fact k)).
  { intros k. pose proof (INR_fact_neq_0 k). field. exact H. }
  cbn [sum_f_R0]. rewrite !F. clear F.
  assert (E0 : 1 - (-1) ^ 0 = 0) by ring. assert (E1 : 1 - (-1) ^ 1 = 2) by ring. assert (E2 : 1 - (-1) ^ 2 = 0) by ring. assert (E3 : 1 - (-1) ^ 3 = 2) by ring.
  assert (E4 : 1 - (-1) ^ 4 = 0) by ring. assert (E5 : 1 - (-1) ^ 5 = 2) by ring. assert (E6 : 1 - (-1) ^ 6 = 0) by ring. assert (E7 : 1 - (-1) ^ 7 = 2) by ring.
  assert (E8 : 1 - (-1) ^ 8 = 0) by ring. assert (E9 : 1 - (-1) ^ 9 = 2) by ring. assert (E10 : 1 - (-1) ^ 10 = 0) by ring. assert (E11 : 1 - (-1) ^ 11 = 2) by ring.
  assert (E12 : 1 - (-1) ^ 12 = 0) by ring. assert (E13 : 1 - (-1) ^ 13 = 2) by ring. assert (E14 : 1 - (-1) ^ 14 = 0) by ring.
  rewrite E0, E1, E2, E3, E4, E5, E6, E7, E8, E9, E10, E11, E12, E13, E14. clear - y.
  destruct fact_values as (f1 & f3 & f5 & f7 & f9 & f11 & f13 & _).
  rewrite f1, f3, f5, f7, f9, f11, f13. clear f1 f3 f5 f7 f9 f11 f13.
  replace (0 * t ^ 0 * Yd 0 h / INR (fact 0)) with 0 by (unfold Rdiv; ring).
  replace (0 * t ^ 2 * Yd 2 h / INR (fact 2)) with 0 by (unfold Rdiv; ring).
  replace (0 * t ^ 4 * Yd 4 h / INR (fact 4)) with 0 by (unfold Rdiv; ring).
  replace (0 * t ^ 6 * Yd 6 h / INR (fact 6)) with 0 by (unfold Rdiv; ring).
  replace (0 * t ^ 8 * Yd 8 h / INR (fact 8)) with 0 by (unfold Rdiv; ring).
  replace (0 * t ^ 10 * Yd 10 h / INR (fact 10)) with 0 by (unfold Rdiv; ring).
  replace (0 * t ^ 12 * Yd 12 h / INR (fact 12)) with 0 by (unfold Rdiv; ring).
  replace (0 * t ^ 14 * Yd 14 h / INR (fact 14)) with 0 by (unfold Rdiv; ring).
  assert (A1 : Yd 1 h = 1 + h * y) by reflexivity.
  assert (N : forall n, INR (S n) = INR n + 1) by (intros; apply S_INR).
  cbn [Yd]. rewrite !N. change (INR 0) with 0. fold y. field.
Qed.

Lemma Dd_odd_pos h k t : Nat.odd k = true -> 0 < Dd h k t.
Proof.
  intros H. apply Nat.odd_spec in H. destruct H as [m ->]. unfold Dd. replace ((-1) ^ (2 * m + 1)) with (-1).
  - pose proof (Yd_pos (2 * m + 1) (h + t)). pose proof (Yd_pos (2 * m + 1) (h - t)). lra.
  - rewrite pow_add, pow_1_even. ring.
Qed.
Lemma Y_0 : Y 0 <= 1415 / 1000.
Proof.
  unfold Y. rewrite ncdf_0. unfold npdf. replace (- / 2 * 0 ^ 2) with 0 by ring. rewrite exp_0, Rmult_1_r. unfold Rdiv at 1. rewrite Rinv_inv.
  assert (sqrt (2 * PI) <= 283 / 100); [|lra]. replace (283 / 100) with (sqrt (283 / 100 * (283 / 100))) by (apply sqrt_square; lra). apply sqrt_le_1_alt. pose proof PI_4. lra.
Qed.
(** the fifteenth derivative is dominated by the first up to the threshold *)
Lemma Yd_15 z : z <= 2103 / 10000 -> Yd 15 z <= 2500000 * Yd 1 z.
Proof.
  intros Hz. destruct (Rle_dec z 0) as [L|L].
  - pose proof (Yd_odd_bound 13 z L) as B1. pose proof (Yd_odd_bound 11 z L) as B2. pose proof (Yd_odd_bound 9 z L) as B3.
    pose proof (Yd_odd_bound 7 z L) as B4. pose proof (Yd_odd_bound 5 z L) as B5. pose proof (Yd_odd_bound 3 z L) as B6. pose proof (Yd_odd_bound 1 z L) as B7.
    rewrite INR_IZR_INZ in B1, B2, B3, B4, B5, B6, B7. simpl IZR in *. pose proof (Yd_pos 1 z). lra.
  - set (tau := 2103 / 10000) in *. assert (B0 : Yd 0 tau <= 171 / 100).
    { pose proof Y_0 as Z. assert (T : 0 < tau) by (unfold tau; lra). destruct (mvt (Yd 0) (Yd 1) 0 tau T) as (c & Hc & E); [intros; apply Yd_derive|].
      pose proof (Yd_le 1 c tau (proj2 Hc)) as M. cbn [Yd] in *. fold (Y tau) in *. unfold tau in *. nra. }
    assert (B1 : Yd 1 tau <= 13597/10000) by (cbn [Yd] in *; unfold tau in *; lra).
    assert (step : forall n a b c, INR (S n) * a + 2103 / 10000 * b <= c -> Yd n tau <= a -> Yd (S n) tau <= b -> Yd (S (S n)) tau <= c).
    { intros n a b c H1 H2 H3. rewrite Yd_SS. pose proof (pos_INR (S n)). unfold tau in *. nra. }
    pose proof (step 0%nat (171/100) (13597/10000) (499/250) ltac:(simpl; lra) B0 B1) as B2.
    pose proof (step 1%nat (13597/10000) (499/250) (1962/625) ltac:(simpl; lra) B1 B2) as B3.
    pose proof (step 2%nat (499/250) (1962/625) (33241/5000) ltac:(simpl; lra) B2 B3) as B4.
    pose proof (step 3%nat (1962/625) (33241/5000) (2791/200) ltac:(simpl; lra) B3 B4) as B5.
    pose proof (step 4%nat (33241/5000) (2791/200) (180879/5000) ltac:(simpl; lra) B4 B5) as B6.
    pose proof (step 5%nat (2791/200) (180879/5000) (456689/5000) ltac:(simpl; lra) B5 B6) as B7.
    pose proof (step 6%nat (180879/5000) (456689/5000) (272439/1000) ltac:(simpl; lra) B6 B7) as B8.
    pose proof (step 7%nat (456689/5000) (272439/1000) (1969991/2500) ltac:(simpl; lra) B7 B8) as B9.
    pose proof (step 8%nat (272439/1000) (1969991/2500) (26176667/10000) ltac:(simpl; lra) B8 B9) as B10.
    pose proof (step 9%nat (1969991/2500) (26176667/10000) (42152297/5000) ltac:(simpl; lra) B9 B10) as B11.
    pose proof (step 10%nat (26176667/10000) (42152297/5000) (152836297/5000) ltac:(simpl; lra) B10 B11) as B12.
    pose proof (step 11%nat (42152297/5000) (152836297/5000) (43037523/400) ltac:(simpl; lra) B11 B12) as B13.
    pose proof (step 12%nat (152836297/5000) (43037523/400) (8400027/20) ltac:(simpl; lra) B12 B13) as B14.
    pose proof (step 13%nat (43037523/400) (8400027/20) (1594639589/1000) ltac:(simpl; lra) B13 B14) as B15.
    assert (Yd 15 z <= Yd 15 tau) by (apply Yd_le; exact Hz). assert (1 <= Yd 1 z) by (assert (Yd 1 0 <= Yd 1 z) as Q by (apply Yd_le; lra); cbn [Yd] in Q |- *; lra). lra.
Qed.

(** relative error of the expansion *)
Lemma small_t_error h t : h <= 0 -> 0 < t -> t <= 21023 / 100000 ->
  0 <= Dd h 0 t - small_t_expansion_sum t (1 + h * Y h) (t * t) (h * h) <= 2 / 10 ^ 14 * Dd h 0 t.
Proof.
  intros Hh Ht Hb. set (P := fun t => sum_f_R0 (fun k => t ^ k / INR (fact k) * Dd h k 0) 14). rewrite small_t_sum. fold (P t).
  assert (R1 : forall u, 0 < u -> exists c, 0 < c < u /\ Dd h 0 u - P u = u ^ 15 / INR (fact 15) * Dd h 15 c).
  { intros u Hu. destruct (taylor_chain (Dd h) (Dd_derive h) 14 0 u Hu) as (c & Hc & E). rewrite Rminus_0_r in E. exists c. split; [exact Hc|]. unfold P. lra. }
  split.
  - destruct (R1 t Ht) as (c & Hc & E). rewrite E. apply Rmult_le_pos; [|left; now apply Dd_odd_pos].
    apply Rmult_le_pos; [apply pow_le; lra|left; apply Rinv_0_lt_compat, INR_fact_lt_0].
  - set (Q := fun t => sum_f_R0 (fun k => t ^ k / INR (fact k) * Dd h (S k) 0) 13).
    assert (DP : forall u, is_derive P u (Q u)).
    { intros u. unfold P, Q. assert (G : forall n, is_derive (fun t => sum_f_R0 (fun k => t ^ k / INR (fact k) * Dd h k 0) (S n)) u (sum_f_R0 (fun k => u ^ k / INR (fact k) * Dd h (S k) 0) n)).
      { assert (T : forall k, is_derive (fun t => t ^ S k / INR (fact (S k)) * Dd h (S k) 0) u (u ^ k / INR (fact k) * Dd h (S k) 0)).
        { intros k. eapply isd_eq; [apply d_mul; [apply d_mul; [apply (is_derive_pow (fun y => y) (S k)), d_id|apply d_const]|apply d_const]|].
          cbv beta. change (pred (S k)) with k. change (fact (S k)) with (S k * fact k)%nat. rewrite mult_INR. pose proof (INR_fact_neq_0 k). assert (INR (S k) <> 0) by (apply not_0_INR; lia). field. split; assumption. }
        induction n.
        - cbn [sum_f_R0]. eapply isd_eq; [apply d_add; [eapply isd_ext; [|apply (d_const (Dd h 0 0))]; intros; simpl; field|apply T]|]. ring.
        - apply (isd_ext (fun t => sum_f_R0 (fun k => t ^ k / INR (fact k) * Dd h k 0) (S n) + t ^ S (S n) / INR (fact (S (S n))) * Dd h (S (S n)) 0)); [reflexivity|].
          cbn [sum_f_R0]. apply d_add; [exact IHn|apply T]. }
      apply (G 13%nat). }
    assert (R2 : forall u, 0 < u -> exists c, 0 < c < u /\ Dd h 1 u - Q u = u ^ 14 / INR (fact 14) * Dd h 15 c).
    { intros u Hu. destruct (taylor_chain (fun k => Dd h (S k)) (fun k => Dd_derive h (S k)) 13 0 u Hu) as (c & Hc & E). rewrite Rminus_0_r in E. exists c. split; [exact Hc|]. unfold Q. lra. }
    set (kap := 2 / 10 ^ 14).
    destruct (mvt (fun u => kap * Dd h 0 u - (Dd h 0 u - P u)) (fun u => kap * Dd h 1 u - (Dd h 1 u - Q u)) 0 t Ht) as (u & Hu & E).
    { intros u _. apply d_sub; [|apply d_sub; [apply Dd_derive|apply DP]].
      eapply isd_eq; [apply d_mul; [apply d_const|apply Dd_derive]|]. cbv beta; ring. }
    assert (Z : Dd h 0 0 = 0) by (unfold Dd; rewrite Rplus_0_r, Rminus_0_r; simpl; ring).
    assert (PZ : P 0 = 0). { unfold P. rewrite (sum_eq _ (fun _ => 0)). - rewrite sum_cte; ring. - intros [|i] _; [rewrite Z; ring|]. rewrite pow_i by lia. unfold Rdiv. ring. }
    cbv beta in E. rewrite Z, PZ in E.
    assert (G : 0 <= kap * Dd h 1 u - (Dd h 1 u - Q u)).
    { destruct (Rle_lt_or_eq_dec 0 u (proj1 Hu)) as [Up|<-].
      - destruct (R2 u Up) as (c & Hc & E2). rewrite E2.
        assert (M15 : Dd h 15 c <= Dd h 15 u).
        { destruct (mvt (Dd h 15) (Dd h 16) c u) as (w & Hw & E3); [lra|intros; apply Dd_derive|].
          assert (0 <= Dd h 16 w). { unfold Dd. replace ((-1) ^ 16) with 1 by ring. pose proof (Yd_le 16 (h - w) (h + w)). lra. } nra. }
        assert (B15 : Dd h 15 u <= 2500000 * Dd h 1 u).
        { unfold Dd. replace ((-1) ^ 15) with (-1) by ring. replace ((-1) ^ 1) with (-1) by ring.
          pose proof (Yd_15 (h + u)). pose proof (Yd_15 (h - u)). lra. }
        assert (D1 : 0 < Dd h 1 u) by (now apply Dd_odd_pos).
        assert (U14 : 0 <= u ^ 14 / INR (fact 14) <= (21023 / 100000) ^ 14 / 87178291200).
        { destruct fact_values as (_ & _ & _ & _ & _ & _ & _ & f14).
          rewrite f14. split; [apply Rmult_le_pos; [apply pow_le; lra|lra]|]. apply Rmult_le_compat_r; [lra|]. apply pow_incr. lra. }
        assert (K : (21023 / 100000) ^ 14 / 87178291200 * 2500000 <= kap) by (unfold kap; lra).
        assert (C15 : 0 < Dd h 15 c) by (now apply Dd_odd_pos).
        set (g := u ^ 14 / INR (fact 14)) in *. set (g0 := (21023 / 100000) ^ 14 / 87178291200) in *. clearbody g g0 kap.
        assert (g * Dd h 15 c <= g0 * (2500000 * Dd h 1 u)) by (apply Rmult_le_compat; lra).
        assert (g0 * 2500000 * Dd h 1 u <= kap * Dd h 1 u) by (apply Rmult_le_compat_r; lra). lra.
      - assert (Q 0 = Dd h 1 0). { unfold Q. rewrite (decomp_sum _ 13) by lia. rewrite (sum_eq _ (fun _ => 0)). - rewrite sum_cte. simpl fact. simpl INR. simpl pow. field. - intros i _. rewrite pow_i by lia. unfold Rdiv. ring. }
        rewrite H. pose proof (Dd_odd_pos h 1 0 eq_refl). assert (0 < kap) by (unfold kap; lra). nra. }
    nra.
Qed.

(** ** Region 1: asymptotic expansion *)
(** ((1 + sqrt e)^(2k+1) - (1 - sqrt e)^(2k+1)) / sqrt e, as a polynomial in e *)
Fixpoint binom_odd (k : nat) (e : R) : R :=
  match k with
  | O => 2
  | S m => match m with O => 6 + 2 * e | S j => (2 + 2 * e) * binom_odd m e - (1 - e) * (1 - e) * binom_odd j e end
  end.
(** the polynomial of the code, term by term *)
Lemma binom_odd_SS k e : binom_odd (S (S k)) e = (2 + 2 * e) * binom_odd (S k) e - (1 - e) * (1 - e) * binom_odd k e. Proof. reflexivity. Qed.
Lemma asymptotic_sum e q : asymptotic_expansion_sum e q = sum_f_R0 (fun k => (-1) ^ k * dfact k * q ^ k * binom_odd k e) 17.
Proof.
  assert (B0 : 2 = binom_odd 0 e) by reflexivity.
  assert (B1 : -6- 2 * e = - binom_odd 1 e) by (cbn [binom_odd]; ring).
  assert (B2 : 10+ e*(20+2*e) = binom_odd 2 e).
  { rewrite binom_odd_SS. pose proof B1 as P1. pose proof B0 as P2. set (b1 := binom_odd 1 e) in *. set (b2 := binom_odd 0 e) in *. clearbody b1 b2. replace b1 with (- (-6- 2 * e)) by lra. replace b2 with (2) by lra. clear. ring. }
  assert (B3 : -14+ e * (-70+ e * (-42- 2 * e)) = - binom_odd 3 e).
  { rewrite binom_odd_SS. pose proof B2 as P1. pose proof B1 as P2. set (b1 := binom_odd 2 e) in *. set (b2 := binom_odd 1 e) in *. clearbody b1 b2. replace b1 with ((10+ e*(20+2*e))) by lra. replace b2 with (- (-6- 2 * e)) by lra. clear. ring. }
  assert (B4 : 18+ e*(168+ e*(252+ e*(72+2*e))) = binom_odd 4 e).
  { rewrite binom_odd_SS. pose proof B3 as P1. pose proof B2 as P2. set (b1 := binom_odd 3 e) in *. set (b2 := binom_odd 2 e) in *. clearbody b1 b2. replace b1 with (- (-14+ e * (-70+ e * (-42- 2 * e)))) by lra. replace b2 with ((10+ e*(20+2*e))) by lra. clear. ring. }
  assert (B5 : - 22+ e*(-330+ e*(-924+ e*(-660+ e*(-110- 2*e)))) = - binom_odd 5 e).
  { rewrite binom_odd_SS. pose proof B4 as P1. pose proof B3 as P2. set (b1 := binom_odd 4 e) in *. set (b2 := binom_odd 3 e) in *. clearbody b1 b2. replace b1 with ((18+ e*(168+ e*(252+ e*(72+2*e))))) by lra. replace b2 with (- (-14+ e * (-70+ e * (-42- 2 * e)))) by lra. clear. ring. }
  assert (B6 : 26+ e*(572+ e*(2574+ e*(3432+ e*(1430+ e*(156+2*e))))) = binom_odd 6 e).
  { rewrite binom_odd_SS. pose proof B5 as P1. pose proof B4 as P2. set (b1 := binom_odd 5 e) in *. set (b2 := binom_odd 4 e) in *. clearbody b1 b2. replace b1 with (- (- 22+ e*(-330+ e*(-924+ e*(-660+ e*(-110- 2*e)))))) by lra. replace b2 with ((18+ e*(168+ e*(252+ e*(72+2*e))))) by lra. clear. ring. }
  assert (B7 : -30+ e*(-910+ e*(-6006+ e*(-12870+ e*(-10010+ e*(- 2730+ e*(- 210- 2*e)))))) = - binom_odd 7 e).
  { rewrite binom_odd_SS. pose proof B6 as P1. pose proof B5 as P2. set (b1 := binom_odd 6 e) in *. set (b2 := binom_odd 5 e) in *. clearbody b1 b2. replace b1 with ((26+ e*(572+ e*(2574+ e*(3432+ e*(1430+ e*(156+2*e))))))) by lra. replace b2 with (- (- 22+ e*(-330+ e*(-924+ e*(-660+ e*(-110- 2*e)))))) by lra. clear. ring. }
  assert (B8 : 34+ e*(1360+ e*(12376+ e*(38896+ e*(48620+ e*(24752+ e*(4760+ e*(272+2*e))))))) = binom_odd 8 e).
  { rewrite binom_odd_SS. pose proof B7 as P1. pose proof B6 as P2. set (b1 := binom_odd 7 e) in *. set (b2 := binom_odd 6 e) in *. clearbody b1 b2. replace b1 with (- (-30+ e*(-910+ e*(-6006+ e*(-12870+ e*(-10010+ e*(- 2730+ e*(- 210- 2*e)))))))) by lra. replace b2 with ((26+ e*(572+ e*(2574+ e*(3432+ e*(1430+ e*(156+2*e))))))) by lra. clear. ring. }
  assert (B9 : -38+ e*(-1938+ e*(- 23256+ e*(-100776+ e*(-184756+ e*(-151164+ e*(-54264+ e*(-7752+ e*(-342- 2*e)))))))) = - binom_odd 9 e).
  { rewrite binom_odd_SS. pose proof B8 as P1. pose proof B7 as P2. set (b1 := binom_odd 8 e) in *. set (b2 := binom_odd 7 e) in *. clearbody b1 b2. replace b1 with ((34+ e*(1360+ e*(12376+ e*(38896+ e*(48620+ e*(24752+ e*(4760+ e*(272+2*e))))))))) by lra. replace b2 with (- (-30+ e*(-910+ e*(-6006+ e*(-12870+ e*(-10010+ e*(- 2730+ e*(- 210- 2*e)))))))) by lra. clear. ring. }
  assert (B10 : 42+ e*(2660+ e*(40698+ e*(232560+ e*(587860+ e*(705432+ e*(406980+ e*(108528+ e*(11970+ e*(420+2*e))))))))) = binom_odd 10 e).
  { rewrite binom_odd_SS. pose proof B9 as P1. pose proof B8 as P2. set (b1 := binom_odd 9 e) in *. set (b2 := binom_odd 8 e) in *. clearbody b1 b2. replace b1 with (- (-38+ e*(-1938+ e*(- 23256+ e*(-100776+ e*(-184756+ e*(-151164+ e*(-54264+ e*(-7752+ e*(-342- 2*e)))))))))) by lra. replace b2 with ((34+ e*(1360+ e*(12376+ e*(38896+ e*(48620+ e*(24752+ e*(4760+ e*(272+2*e))))))))) by lra. clear. ring. }
  assert (B11 : -46+ e*(-3542+ e*(-67298+ e*(-490314+ e*(-1634380+ e*(- 2704156+ e*(- 2288132+ e*(-980628+ e*(- 201894+ e*(-17710+ e*(-506- 2*e)))))))))) = - binom_odd 11 e).
  { rewrite binom_odd_SS. pose proof B10 as P1. pose proof B9 as P2. set (b1 := binom_odd 10 e) in *. set (b2 := binom_odd 9 e) in *. clearbody b1 b2. replace b1 with ((42+ e*(2660+ e*(40698+ e*(232560+ e*(587860+ e*(705432+ e*(406980+ e*(108528+ e*(11970+ e*(420+2*e))))))))))) by lra. replace b2 with (- (-38+ e*(-1938+ e*(- 23256+ e*(-100776+ e*(-184756+ e*(-151164+ e*(-54264+ e*(-7752+ e*(-342- 2*e)))))))))) by lra. clear. ring. }
  assert (B12 : 50+ e*(4600+ e*(106260+ e*(961400+ e*(4085950+ e*(8914800+ e*(10400600+ e*(6537520+ e*(2163150+ e*(354200+ e*(25300+ e*(600+2*e))))))))))) = binom_odd 12 e).
  { rewrite binom_odd_SS. pose proof B11 as P1. pose proof B10 as P2. set (b1 := binom_odd 11 e) in *. set (b2 := binom_odd 10 e) in *. clearbody b1 b2. replace b1 with (- (-46+ e*(-3542+ e*(-67298+ e*(-490314+ e*(-1634380+ e*(- 2704156+ e*(- 2288132+ e*(-980628+ e*(- 201894+ e*(-17710+ e*(-506- 2*e)))))))))))) by lra. replace b2 with ((42+ e*(2660+ e*(40698+ e*(232560+ e*(587860+ e*(705432+ e*(406980+ e*(108528+ e*(11970+ e*(420+2*e))))))))))) by lra. clear. ring. }
  assert (B13 : -54+ e*(-5850+ e*(-161460+ e*(-1776060+ e*(-9373650+ e*(- 26075790+ e*(-40116600+ e*(-34767720+ e*(-16872570+ e*(-4440150+ e*(-592020+ e*(-35100+ e*(-702- 2*e)))))))))))) = - binom_odd 13 e).
  { rewrite binom_odd_SS. pose proof B12 as P1. pose proof B11 as P2. set (b1 := binom_odd 12 e) in *. set (b2 := binom_odd 11 e) in *. clearbody b1 b2. replace b1 with ((50+ e*(4600+ e*(106260+ e*(961400+ e*(4085950+ e*(8914800+ e*(10400600+ e*(6537520+ e*(2163150+ e*(354200+ e*(25300+ e*(600+2*e))))))))))))) by lra. replace b2 with (- (-46+ e*(-3542+ e*(-67298+ e*(-490314+ e*(-1634380+ e*(- 2704156+ e*(- 2288132+ e*(-980628+ e*(- 201894+ e*(-17710+ e*(-506- 2*e)))))))))))) by lra. clear. ring. }
  assert (B14 : 58+ e*(7308+ e*(237510+ e*(3121560+ e*(20030010+ e*(69194580+ e*(135727830+ e*(155117520+ e*(103791870+ e*(40060020+ e*(8584290+ e*(950040+ e*(47502+ e*(812+2*e))))))))))))) = binom_odd 14 e).
  { rewrite binom_odd_SS. pose proof B13 as P1. pose proof B12 as P2. set (b1 := binom_odd 13 e) in *. set (b2 := binom_odd 12 e) in *. clearbody b1 b2. replace b1 with (- (-54+ e*(-5850+ e*(-161460+ e*(-1776060+ e*(-9373650+ e*(- 26075790+ e*(-40116600+ e*(-34767720+ e*(-16872570+ e*(-4440150+ e*(-592020+ e*(-35100+ e*(-702- 2*e)))))))))))))) by lra. replace b2 with ((50+ e*(4600+ e*(106260+ e*(961400+ e*(4085950+ e*(8914800+ e*(10400600+ e*(6537520+ e*(2163150+ e*(354200+ e*(25300+ e*(600+2*e))))))))))))) by lra. clear. ring. }
  assert (B15 : -62+ e*(-8990+ e*(-339822+ e*(-5259150+ e*(-40320150+ e*(-169344630+ e*(-412506150+ e*(-601080390+ e*(-530365050+ e*(- 282241050+ e*(-88704330+ e*(-15777450+ e*(-1472562+ e*(-62930+ e*(-930- 2*e)))))))))))))) = - binom_odd 15 e).
  { rewrite binom_odd_SS. pose proof B14 as P1. pose proof B13 as P2. set (b1 := binom_odd 14 e) in *. set (b2 := binom_odd 13 e) in *. clearbody b1 b2. replace b1 with ((58+ e*(7308+ e*(237510+ e*(3121560+ e*(20030010+ e*(69194580+ e*(135727830+ e*(155117520+ e*(103791870+ e*(40060020+ e*(8584290+ e*(950040+ e*(47502+ e*(812+2*e))))))))))))))) by lra. replace b2 with (- (-54+ e*(-5850+ e*(-161460+ e*(-1776060+ e*(-9373650+ e*(- 26075790+ e*(-40116600+ e*(-34767720+ e*(-16872570+ e*(-4440150+ e*(-592020+ e*(-35100+ e*(-702- 2*e)))))))))))))) by lra. clear. ring. }
  assert (B16 : 66+ e*(10912+ e*(474672+ e*(8544096+ e*(77134200+ e*(387073440+ e*(1146332880+ e*(2074316640+ e*(2333606220+ e*(1637618400+ e*(709634640+ e*(185122080+ e*(27768312+ e*(2215136+ e*(81840+ e*(1056+2*e ))))))))))))))) = binom_odd 16 e).
  { rewrite binom_odd_SS. pose proof B15 as P1. pose proof B14 as P2. set (b1 := binom_odd 15 e) in *. set (b2 := binom_odd 14 e) in *. clearbody b1 b2. replace b1 with (- (-62+ e*(-8990+ e*(-339822+ e*(-5259150+ e*(-40320150+ e*(-169344630+ e*(-412506150+ e*(-601080390+ e*(-530365050+ e*(- 282241050+ e*(-88704330+ e*(-15777450+ e*(-1472562+ e*(-62930+ e*(-930- 2*e)))))))))))))))) by lra. replace b2 with ((58+ e*(7308+ e*(237510+ e*(3121560+ e*(20030010+ e*(69194580+ e*(135727830+ e*(155117520+ e*(103791870+ e*(40060020+ e*(8584290+ e*(950040+ e*(47502+ e*(812+2*e))))))))))))))) by lra. clear. ring. }
  assert (B17 : -70+ e*( -13090+ e*( -649264+ e*( -13449040+ e*( -141214920+ e*( -834451800+ e*( - 2952675600+ e*( -6495886320+ e*( -9075135300+ e*( -8119857900+ e*( -4639918800+ e*( -1668903600+ e*( -367158792+ e*( -47071640+ e*( -3246320+ e*( -104720+ e*( -1190- 2*e )))))))))))))))) = - binom_odd 17 e).
  { rewrite binom_odd_SS. pose proof B16 as P1. pose proof B15 as P2. set (b1 := binom_odd 16 e) in *. set (b2 := binom_odd 15 e) in *. clearbody b1 b2. replace b1 with ((66+ e*(10912+ e*(474672+ e*(8544096+ e*(77134200+ e*(387073440+ e*(1146332880+ e*(2074316640+ e*(2333606220+ e*(1637618400+ e*(709634640+ e*(185122080+ e*(27768312+ e*(2215136+ e*(81840+ e*(1056+2*e ))))))))))))))))) by lra. replace b2 with (- (-62+ e*(-8990+ e*(-339822+ e*(-5259150+ e*(-40320150+ e*(-169344630+ e*(-412506150+ e*(-601080390+ e*(-530365050+ e*(- 282241050+ e*(-88704330+ e*(-15777450+ e*(-1472562+ e*(-62930+ e*(-930- 2*e)))))))))))))))) by lra. clear. ring. }
  unfold asymptotic_expansion_sum. rewrite B1, B2, B3, B4, B5, B6, B7, B8, B9, B10, B11, B12, B13, B14, B15, B16, B17.
  clear. cbn [sum_f_R0].
  assert (D0 : dfact 0 = 1) by reflexivity.
  assert (D1 : dfact 1 = 1) by (change (dfact 1) with (INR (2 * 0 + 1) * dfact 0); rewrite D0; rewrite INR_IZR_INZ; simpl Z.of_nat; ring).
  assert (D2 : dfact 2 = 3) by (change (dfact 2) with (INR (2 * 1 + 1) * dfact 1); rewrite D1; rewrite INR_IZR_INZ; simpl Z.of_nat; ring).
  assert (D3 : dfact 3 = 15) by (change (dfact 3) with (INR (2 * 2 + 1) * dfact 2); rewrite D2; rewrite INR_IZR_INZ; simpl Z.of_nat; ring).
  assert (D4 : dfact 4 = 105) by (change (dfact 4) with (INR (2 * 3 + 1) * dfact 3); rewrite D3; rewrite INR_IZR_INZ; simpl Z.of_nat; ring).
  assert (D5 : dfact 5 = 945) by (change (dfact 5) with (INR (2 * 4 + 1) * dfact 4); rewrite D4; rewrite INR_IZR_INZ; simpl Z.of_nat; ring).
  assert (D6 : dfact 6 = 10395) by (change (dfact 6) with (INR (2 * 5 + 1) * dfact 5); rewrite D5; rewrite INR_IZR_INZ; simpl Z.of_nat; ring).
  assert (D7 : dfact 7 = 135135) by (change (dfact 7) with (INR (2 * 6 + 1) * dfact 6); rewrite D6; rewrite INR_IZR_INZ; simpl Z.of_nat; ring).
  assert (D8 : dfact 8 = 2027025) by (change (dfact 8) with (INR (2 * 7 + 1) * dfact 7); rewrite D7; rewrite INR_IZR_INZ; simpl Z.of_nat; ring).
  assert (D9 : dfact 9 = 34459425) by (change (dfact 9) with (INR (2 * 8 + 1) * dfact 8); rewrite D8; rewrite INR_IZR_INZ; simpl Z.of_nat; ring).
  assert (D10 : dfact 10 = 654729075) by (change (dfact 10) with (INR (2 * 9 + 1) * dfact 9); rewrite D9; rewrite INR_IZR_INZ; simpl Z.of_nat; ring).
  assert (D11 : dfact 11 = 13749310575) by (change (dfact 11) with (INR (2 * 10 + 1) * dfact 10); rewrite D10; rewrite INR_IZR_INZ; simpl Z.of_nat; ring).
  assert (D12 : dfact 12 = 316234143225) by (change (dfact 12) with (INR (2 * 11 + 1) * dfact 11); rewrite D11; rewrite INR_IZR_INZ; simpl Z.of_nat; ring).
  assert (D13 : dfact 13 = 7905853580625) by (change (dfact 13) with (INR (2 * 12 + 1) * dfact 12); rewrite D12; rewrite INR_IZR_INZ; simpl Z.of_nat; ring).
  assert (D14 : dfact 14 = 213458046676875) by (change (dfact 14) with (INR (2 * 13 + 1) * dfact 13); rewrite D13; rewrite INR_IZR_INZ; simpl Z.of_nat; ring).
  assert (D15 : dfact 15 = 6190283353629375) by (change (dfact 15) with (INR (2 * 14 + 1) * dfact 14); rewrite D14; rewrite INR_IZR_INZ; simpl Z.of_nat; ring).
  assert (D16 : dfact 16 = 191898783962510625) by (change (dfact 16) with (INR (2 * 15 + 1) * dfact 15); rewrite D15; rewrite INR_IZR_INZ; simpl Z.of_nat; ring).
  assert (D17 : dfact 17 = 6332659870762850625) by (change (dfact 17) with (INR (2 * 16 + 1) * dfact 16); rewrite D16; rewrite INR_IZR_INZ; simpl Z.of_nat; ring).
  rewrite D0, D1, D2, D3, D4, D5, D6, D7, D8, D9, D10, D11, D12, D13, D14, D15, D16, D17. clear.
  generalize (binom_odd 1 e). intros b1.
  generalize (binom_odd 2 e). intros b2.
  generalize (binom_odd 3 e). intros b3.
  generalize (binom_odd 4 e). intros b4.
  generalize (binom_odd 5 e). intros b5.
  generalize (binom_odd 6 e). intros b6.
  generalize (binom_odd 7 e). intros b7.
  generalize (binom_odd 8 e). intros b8.
  generalize (binom_odd 9 e). intros b9.
  generalize (binom_odd 10 e). intros b10.
  generalize (binom_odd 11 e). intros b11.
  generalize (binom_odd 12 e). intros b12.
  generalize (binom_odd 13 e). intros b13.
  generalize (binom_odd 14 e). intros b14.
  generalize (binom_odd 15 e). intros b15.
  generalize (binom_odd 16 e). intros b16.
  generalize (binom_odd 17 e). intros b17.
  change (binom_odd 0 e) with 2. ring.
Qed.
Lemma binom_odd_powers u1 u2 k : 0 < u1 -> 0 < u2 ->
  let h := - (u1 + u2) / 2 in let t := (u2 - u1) / 2 in let r := u1 * u2 in
  t / r * (((h / r) * (h / r)) ^ k * binom_odd k (t / h * (t / h))) = (/ u1) ^ (2 * k + 1) - (/ u2) ^ (2 * k + 1).
Proof.
  intros H1 H2 h t r. assert (Hh : h <> 0) by (unfold h; lra). assert (Hr : r <> 0) by (unfold r; nra).
  set (q := h / r * (h / r)). set (e := t / h * (t / h)).
  assert (Q1 : q * (2 + 2 * e) = (/ u1) ^ 2 + (/ u2) ^ 2) by (unfold q, e, h, t, r; field; repeat split; lra).
  assert (Q2 : (q * q) * ((1 - e) * (1 - e)) = (/ u1) ^ 2 * (/ u2) ^ 2) by (unfold q, e, h, t, r; field; repeat split; lra).
  assert (G : t / r * (q ^ k * binom_odd k e) = (/ u1) ^ (2 * k + 1) - (/ u2) ^ (2 * k + 1) /\
              t / r * (q ^ S k * binom_odd (S k) e) = (/ u1) ^ (2 * S k + 1) - (/ u2) ^ (2 * S k + 1)).
  { induction k as [|k [IH1 IH2]].
    - split; [unfold q, e, h, t, r; simpl; field; repeat split; lra|]. cbn [binom_odd]. simpl pow.
      replace (6 + 2 * e) with (3 * (2 + 2 * e) - 4 * e) by ring.
      assert (Q3 : q * (6 + 2 * e) = 2 * ((/ u1) ^ 2 + (/ u1) * (/ u2) + (/ u2) ^ 2)) by (unfold q, e, h, t, r; field; repeat split; lra).
      replace (t / r * (q * 1 * (3 * (2 + 2 * e) - 4 * e))) with (t / r * (q * (6 + 2 * e))) by ring. rewrite Q3. unfold t, r. field. lra.
    - split; [exact IH2|]. change (binom_odd (S (S k)) e) with ((2 + 2 * e) * binom_odd (S k) e - (1 - e) * (1 - e) * binom_odd k e).
      transitivity (q * (2 + 2 * e) * (t / r * (q ^ S k * binom_odd (S k) e)) - (q * q) * ((1 - e) * (1 - e)) * (t / r * (q ^ k * binom_odd k e))); [cbn [pow]; ring|].
      rewrite IH1, IH2, Q1, Q2. replace (2 * S (S k) + 1)%nat with (2 * k + 1 + 4)%nat by lia. replace (2 * S k + 1)%nat with (2 * k + 1 + 2)%nat by lia.
      rewrite !(pow_add _ (2 * k + 1)). ring. }
  exact (proj1 G).
Qed.
Lemma mills_series_sum n u : mills_series n u = sum_f_R0 (fun k => (-1) ^ k * dfact k * (/ u) ^ (2 * k + 1)) n.
Proof.
  induction n; [simpl; ring|]. cbn [mills_series sum_f_R0]. rewrite IHn. do 2 f_equal. f_equal. lia.
Qed.
(** the code's region 1 is the difference of two partial sums of the asymptotic series *)
Lemma asymptotic_mills u1 u2 : 0 < u1 -> 0 < u2 -> forall h t, h = - (u1 + u2) / 2 -> t = (u2 - u1) / 2 ->
  t / ((h + t) * (h - t)) * asymptotic_expansion_sum (t / h * (t / h)) (h / ((h + t) * (h - t)) * (h / ((h + t) * (h - t)))) =
  mills_series 17 u1 - mills_series 17 u2.
Proof.
  intros H1 H2 h t Eh Et. replace ((h + t) * (h - t)) with (u1 * u2) by (rewrite Eh, Et; field).
  rewrite asymptotic_sum, !mills_series_sum, scal_sum, <- minus_sum. apply sum_eq. intros i _.
  pose proof (binom_odd_powers u1 u2 i H1 H2) as P. cbv zeta in P. rewrite <- Eh, <- Et in P.
  transitivity ((-1) ^ i * dfact i * (t / (u1 * u2) * ((h / (u1 * u2) * (h / (u1 * u2))) ^ i * binom_odd i (t / h * (t / h))))); [ring|].
  rewrite P. ring.
Qed.
Lemma dfact_19 : dfact 19 = 8200794532637891559375.
Proof.
  assert (S1 : forall k, dfact (S k) = INR (2 * k + 1) * dfact k) by reflexivity.
  assert (D0 : dfact 0 = 1) by reflexivity.
  assert (D1 : dfact 1 = 1) by (rewrite S1, D0, INR_IZR_INZ; simpl Z.of_nat; ring).
  assert (D2 : dfact 2 = 3) by (rewrite S1, D1, INR_IZR_INZ; simpl Z.of_nat; ring).
  assert (D3 : dfact 3 = 15) by (rewrite S1, D2, INR_IZR_INZ; simpl Z.of_nat; ring).
  assert (D4 : dfact 4 = 105) by (rewrite S1, D3, INR_IZR_INZ; simpl Z.of_nat; ring).
  assert (D5 : dfact 5 = 945) by (rewrite S1, D4, INR_IZR_INZ; simpl Z.of_nat; ring).
  assert (D6 : dfact 6 = 10395) by (rewrite S1, D5, INR_IZR_INZ; simpl Z.of_nat; ring).
  assert (D7 : dfact 7 = 135135) by (rewrite S1, D6, INR_IZR_INZ; simpl Z.of_nat; ring).
  assert (D8 : dfact 8 = 2027025) by (rewrite S1, D7, INR_IZR_INZ; simpl Z.of_nat; ring).
  assert (D9 : dfact 9 = 34459425) by (rewrite S1, D8, INR_IZR_INZ; simpl Z.of_nat; ring).
  assert (D10 : dfact 10 = 654729075) by (rewrite S1, D9, INR_IZR_INZ; simpl Z.of_nat; ring).
  assert (D11 : dfact 11 = 13749310575) by (rewrite S1, D10, INR_IZR_INZ; simpl Z.of_nat; ring).
  assert (D12 : dfact 12 = 316234143225) by (rewrite S1, D11, INR_IZR_INZ; simpl Z.of_nat; ring).
  assert (D13 : dfact 13 = 7905853580625) by (rewrite S1, D12, INR_IZR_INZ; simpl Z.of_nat; ring).
  assert (D14 : dfact 14 = 213458046676875) by (rewrite S1, D13, INR_IZR_INZ; simpl Z.of_nat; ring).
  assert (D15 : dfact 15 = 6190283353629375) by (rewrite S1, D14, INR_IZR_INZ; simpl Z.of_nat; ring).
  assert (D16 : dfact 16 = 191898783962510625) by (rewrite S1, D15, INR_IZR_INZ; simpl Z.of_nat; ring).
  assert (D17 : dfact 17 = 6332659870762850625) by (rewrite S1, D16, INR_IZR_INZ; simpl Z.of_nat; ring).
  assert (D18 : dfact 18 = 221643095476699771875) by (rewrite S1, D17, INR_IZR_INZ; simpl Z.of_nat; ring).
  rewrite S1, D18, INR_IZR_INZ. simpl Z.of_nat. ring.
Qed.
Lemma asymptotic_error u1 u2 : 978 / 100 <= u1 -> u1 < u2 ->
  Rabs ((mills_series 17 u1 - mills_series 17 u2) - (Y (- u1) - Y (- u2))) <= 2 / 10 ^ 14 * (Y (- u1) - Y (- u2)).
Proof.
  intros H1 L. set (kap := 2 / 10 ^ 14).
  assert (SL : forall u, u1 <= u <= u2 -> is_derive (fun u => Y (- u)) u (- (1 - u * Y (- u)))).
  { intros u _. eapply isd_eq; [apply (is_derive_comp Y (fun z => - z) u); [apply Y_derive|apply d_opp, d_id]|]. unfold scal; simpl; unfold mult; simpl. ring. }
  assert (BD : forall u, u1 <= u <= u2 -> exists d, is_derive (mills_error 17) u d /\ Rabs d <= kap * (1 - u * Y (- u))).
  { intros u Hu. destruct (mills_error_derive 17 u) as (d & Dd' & Hd); [lra|]. exists d. split; [exact Dd'|].
    replace ((-1) ^ 18) with 1 in Hd by ring. rewrite dfact_19 in Hd. pose proof (Y_slope_lower u ltac:(lra)) as S.
    assert (Vp : 0 < / u <= 100 / 978). { split; [apply Rinv_0_lt_compat; lra|]. replace (100 / 978) with (/ (978 / 100)) by field. apply Rinv_le_contravar; lra. }
    set (v := / u) in *. change (2 * 17 + 4)%nat with (36 + 2)%nat in Hd. rewrite pow_add in Hd.
    assert (V2 : 0 < v ^ 2) by (apply pow_lt; lra).
    assert (V36 : 0 < v ^ 36 <= (100 / 978) ^ 36) by (split; [apply pow_lt; lra|apply pow_incr; lra]).
    assert (K : 8200794532637891559375 * (100 / 978) ^ 36 <= kap * (1 - 3 * (100 / 978) ^ 2)) by (unfold kap; lra).
    assert (V2b : v ^ 2 <= (100 / 978) ^ 2) by (apply pow_incr; lra).
    assert (KP : 0 < kap) by (unfold kap; lra).
    assert (A : 8200794532637891559375 * (v ^ 36 * v ^ 2) <= kap * (v ^ 2 - 3 * v ^ 4)).
    { replace (kap * (v ^ 2 - 3 * v ^ 4)) with (v ^ 2 * (kap * (1 - 3 * v ^ 2))) by ring.
      replace (8200794532637891559375 * (v ^ 36 * v ^ 2)) with (v ^ 2 * (8200794532637891559375 * v ^ 36)) by ring. apply Rmult_le_compat_l; [lra|]. nra. }
    assert (B : kap * (v ^ 2 - 3 * v ^ 4) <= kap * (1 - u * Y (- u))) by (apply Rmult_le_compat_l; lra).
    apply Rabs_le. lra. }
  assert (G : forall sg, sg = 1 \/ sg = -1 -> sg * (mills_error 17 u2 - mills_error 17 u1) <= kap * (Y (- u1) - Y (- u2))).
  { intros sg Hsg.
    destruct (mvt (fun u => kap * Y (- u) + sg * mills_error 17 u) (fun u => kap * - (1 - u * Y (- u)) + sg * Derive (mills_error 17) u) u1 u2 L) as (c & Hc & E).
    - intros u Hu. destruct (BD u Hu) as (d & D1 & _). rewrite (is_derive_unique _ _ _ D1).
      apply d_add; (eapply isd_eq; [apply d_mul; [apply d_const|eauto]|cbv beta; ring]).
    - destruct (BD c Hc) as (d & D1 & D2). rewrite (is_derive_unique _ _ _ D1) in E. apply Rabs_le_between in D2.
      assert (kap * - (1 - c * Y (- c)) + sg * d <= 0) by (destruct Hsg; subst sg; lra). nra. }
  pose proof (G 1 (or_introl eq_refl)) as G1. pose proof (G (-1) (or_intror eq_refl)) as G2. unfold mills_error in *. apply Rabs_le. split; lra.
Qed.

(** ** The intrinsic value *)
Definition sinh_chain (k : nat) (x : R) : R := (/ 2) ^ k * (exp (x / 2) - (-1) ^ k * exp (- x / 2)).
Lemma sinh_chain_derive k x : is_derive (sinh_chain k) x (sinh_chain (S k) x).
Proof.
  unfold sinh_chain. auto_derive; [exact I|]. match goal with |- ?a = ?b => change (@eq R a b) end. simpl. unfold Rdiv. field.
Qed.
Lemma intrinsic_taylor x : 0 < x -> x * x < 98 * FOURTH_ROOT_DBL_EPSILON ->
  let p := x * (1 + x * x * (1 / 24 + x * x * (1 / 1920 + x * x * (1 / 322560 + 1 / 92897280 * (x * x))))) in
  0 <= (exp (x / 2) - exp (- x / 2)) - p <= / 10 ^ 18 * (exp (x / 2) - exp (- x / 2)).
Proof.
  intros Hx Hb p. unfold FOURTH_ROOT_DBL_EPSILON in Hb. assert (Xb : x < 11 / 100) by nra.
  assert (R1 : exists c, 0 < c < x /\ (exp (x / 2) - exp (- x / 2)) - p = x ^ 11 / INR (fact 11) * ((/ 2) ^ 11 * (exp (c / 2) + exp (- c / 2)))).
  { destruct (taylor_chain sinh_chain sinh_chain_derive 10 0 x Hx) as (c & Hc & E). exists c. split; [exact Hc|]. rewrite Rminus_0_r in E.
    assert (S0 : sinh_chain 0 x = exp (x / 2) - exp (- x / 2)) by (unfold sinh_chain; simpl; ring). rewrite S0 in E. rewrite E. clear E S0.
    replace (sinh_chain 11 c) with ((/ 2) ^ 11 * (exp (c / 2) + exp (- c / 2))) by (unfold sinh_chain; replace ((-1) ^ 11) with (-1) by ring; ring).
    assert (V : forall k, sinh_chain k 0 = (/ 2) ^ k * (1 - (-1) ^ k)) by (intros k; unfold sinh_chain; replace (0 / 2) with 0 by field; replace (- 0 / 2) with 0 by field; rewrite exp_0; ring).
    cbn [sum_f_R0]. rewrite !V. destruct fact_values as (f1 & f3 & f5 & f7 & f9 & f11 & _). rewrite f1, f3, f5, f7, f9.
    match goal with |- ?a + ?r - p = ?r' => assert (a = p) as -> end; [|ring].
    replace (1 - (-1) ^ 0) with 0 by ring. replace (1 - (-1) ^ 2) with 0 by ring. replace (1 - (-1) ^ 4) with 0 by ring.
    replace (1 - (-1) ^ 6) with 0 by ring. replace (1 - (-1) ^ 8) with 0 by ring. replace (1 - (-1) ^ 10) with 0 by ring. unfold p. rewrite !Rmult_0_r. field. }
  destruct R1 as (c & Hc & E). rewrite E. destruct fact_values as (_ & _ & _ & _ & _ & f11 & _). rewrite f11.
  assert (Ec : exp (c / 2) + exp (- c / 2) <= 3).
  { assert (exp (c / 2) <= exp (/ 2)) by (left; apply exp_increasing; lra). assert (exp (- c / 2) <= 1) by (rewrite <- exp_0; left; apply exp_increasing; lra).
    assert (exp (/ 2) <= 2). { assert (E2 : exp (/ 2) * exp (/ 2) = exp 1) by (rewrite <- exp_plus; f_equal; field). pose proof exp_le_3. pose proof (exp_pos (/ 2)). nra. } lra. }
  assert (Ep : 0 < exp (c / 2) + exp (- c / 2)) by (pose proof (exp_pos (c / 2)); pose proof (exp_pos (- c / 2)); lra).
  assert (X11 : 0 < x ^ 11) by (apply pow_lt, Hx). split.
  - apply Rmult_le_pos; [apply Rmult_le_pos; lra|]. apply Rmult_le_pos; [apply pow_le; lra|lra].
  - assert (LB : x <= exp (x / 2) - exp (- x / 2)).
    { destruct (taylor_chain sinh_chain sinh_chain_derive 2 0 x Hx) as (d & Hd & E2). rewrite Rminus_0_r in E2. unfold sinh_chain in E2. cbn [sum_f_R0] in E2.
      replace (0 / 2) with 0 in E2 by field. replace (- 0 / 2) with 0 in E2 by field. rewrite exp_0 in E2. simpl in E2. pose proof (exp_pos (d / 2)). pose proof (exp_pos (- d / 2)).
      assert (0 < x * (x * x)) by (repeat apply Rmult_lt_0_compat; exact Hx). nra. }
    apply Rle_trans with (/ 10 ^ 18 * x); [|apply Rmult_le_compat_l; lra].
    replace (x ^ 11 / 39916800 * ((/ 2) ^ 11 * (exp (c / 2) + exp (- c / 2)))) with (x * (x ^ 10 / 39916800 * ((/ 2) ^ 11 * (exp (c / 2) + exp (- c / 2))))) by field.
    rewrite (Rmult_comm (/ 10 ^ 18)). apply Rmult_le_compat_l; [lra|].
    assert (X10 : 0 <= x ^ 10 <= (11 / 100) ^ 10) by (split; [apply pow_le; lra|apply pow_incr; lra]).
    assert (A : 0 <= x ^ 10 / 39916800 <= (11 / 100) ^ 10 / 39916800) by lra.
    assert (B : 0 <= (/ 2) ^ 11 * (exp (c / 2) + exp (- c / 2)) <= (/ 2) ^ 11 * 3) by (simpl; lra).
    apply Rle_trans with ((11 / 100) ^ 10 / 39916800 * ((/ 2) ^ 11 * 3)); [apply Rmult_le_compat; lra|lra].
Qed.
