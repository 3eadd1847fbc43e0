(** C26, C27: the fast Fourier transform. *)
From Coq Require Import Reals List Bool ZArith Lra Lia Psatz.
From Coquelicot Require Import Coquelicot.
From Verif Require Import Res InterpModel InterpProofs FftModel.
Import ListNotations.
Open Scope R_scope.

Notation C0 := (RtoC 0).
Notation C1 := (RtoC 1).

(** ** Specification: the discrete Fourier transform *)

(** sum of x_j e^{i theta (j0 + j)} *)
Fixpoint dsum (theta : R) (x : list C) (j : nat) : C :=
  match x with
  | [] => C0
  | a :: x' => Cplus (Cmult a (cis (theta * INR j))) (dsum theta x' (S j))
  end.
(** k-th coefficient: sum over j of x_j e^{-2 pi i j k / n} *)
Definition dft (x : list C) (k : nat) : C := dsum (- 2 * PI * INR k / INR (length x)) x 0.

Lemma cis_plus a b : cis (a + b) = Cmult (cis a) (cis b).
Proof. unfold cis, Cmult. simpl. rewrite cos_plus, sin_plus. f_equal; ring. Qed.
Lemma cis_0 : cis 0 = C1.
Proof. unfold cis. rewrite cos_0, sin_0. reflexivity. Qed.
Lemma cis_2kPI t k : cis (t - 2 * PI * INR k) = cis t.
Proof.
  unfold cis. f_equal.
  - rewrite <- (cos_period (t - 2 * PI * INR k) k). f_equal. ring.
  - rewrite <- (sin_period (t - 2 * PI * INR k) k). f_equal. ring.
Qed.
Lemma cis_minus_PI t : cis (t - PI) = Copp (cis t).
Proof.
  unfold cis, Copp. simpl. unfold Rminus. rewrite cos_plus, sin_plus, cos_neg, sin_neg, cos_PI, sin_PI.
  f_equal; ring.
Qed.
Lemma Cmod_cis t : Cmod (cis t) = 1.
Proof.
  unfold Cmod, cis. cbn [fst snd]. replace (cos t ^ 2 + sin t ^ 2) with 1; [apply sqrt_1|].
  pose proof (sin2_cos2 t) as H. unfold Rsqr in H. simpl. lra.
Qed.

Lemma pair_ind {A} (P : list A -> Prop) : P [] -> (forall a, P [a]) ->
  (forall a b l, P l -> P (a :: b :: l)) -> forall l, P l.
Proof.
  intros H0 H1 H2 l. assert (P l /\ forall a, P (a :: l)) as [H _]; [|exact H].
  induction l as [|b l [IH1 IH2]]; split; auto.
Qed.

Lemma dsum_split theta x : forall j,
  dsum theta x (2 * j) =
  Cplus (dsum (2 * theta) (fst (split_array x)) j)
        (Cmult (cis theta) (dsum (2 * theta) (snd (split_array x)) j)).
Proof.
  induction x as [|a|a b x IH] using pair_ind; intros j.
  - cbn. ring.
  - cbn [split_array fst snd dsum]. 
    replace (theta * INR (2 * j)) with (2 * theta * INR j) by (rewrite mult_INR; simpl; ring).
    ring.
  - cbn [split_array]. destruct (split_array x) as [e o]. cbn [fst snd dsum] in *.
    replace (S (S (2 * j))) with (2 * S j)%nat by lia. rewrite IH.
    replace (theta * INR (S (2 * j))) with (theta + 2 * theta * INR j) by (rewrite S_INR, mult_INR; simpl; ring).
    replace (theta * INR (2 * j)) with (2 * theta * INR j) by (rewrite mult_INR; simpl; ring).
    rewrite cis_plus. ring.
Qed.

Lemma dsum_period theta x : forall j, dsum (theta - 2 * PI) x j = dsum theta x j.
Proof.
  induction x as [|a x IH]; intros j; [reflexivity|]. cbn [dsum]. rewrite IH.
  replace ((theta - 2 * PI) * INR j) with (theta * INR j - 2 * PI * INR j) by ring.
  rewrite cis_2kPI. reflexivity.
Qed.

Lemma split_length {A} (x : list A) m : length x = (2 * m)%nat ->
  length (fst (split_array x)) = m /\ length (snd (split_array x)) = m.
Proof.
  revert m. induction x as [|a|a b x IH] using pair_ind; intros m H.
  - simpl in *. lia.
  - simpl in H. lia.
  - destruct m as [|m]; [simpl in H; lia|]. destruct (IH m) as [He Ho]; [simpl in H; lia|].
    cbn [split_array]. destruct (split_array x). cbn [fst snd length] in *. lia.
Qed.

Lemma butterflies_length {A} (add sub : A -> A -> A) tw n e : forall k o, length e = length o ->
  length (fst (butterflies add sub tw n k e o)) = length e /\
  length (snd (butterflies add sub tw n k e o)) = length e.
Proof.
  induction e as [|a e IH]; intros k [|b o] H; try discriminate; [split; reflexivity|].
  cbn [butterflies]. destruct (IH (S k) o) as [H1 H2]; [injection H; auto|].
  destruct (butterflies add sub tw n (S k) e o). cbn [fst snd length] in *. lia.
Qed.
Lemma butterflies_nth {A} (add sub : A -> A -> A) tw n e : forall k o i a b,
  nth_error e i = Some a -> nth_error o i = Some b ->
  nth_error (fst (butterflies add sub tw n k e o)) i = Some (add a (tw n (k + i)%nat b)) /\
  nth_error (snd (butterflies add sub tw n k e o)) i = Some (sub a (tw n (k + i)%nat b)).
Proof.
  induction e as [|c e IH]; intros k [|d o] i a b Ha Hb; try (destruct i; discriminate).
  cbn [butterflies]. destruct i as [|i].
  - injection Ha as ->. injection Hb as ->. rewrite Nat.add_0_r. destruct (butterflies _ _ _ _ _ _ _). split; reflexivity.
  - cbn [nth_error] in Ha, Hb. destruct (IH (S k) o i a b Ha Hb) as [H1 H2].
    destruct (butterflies add sub tw n (S k) e o). cbn [fst snd nth_error] in *.
    replace (k + S i)%nat with (S k + i)%nat by lia. split; assumption.
Qed.

(** the shape of one level *)
Lemma calculation_step {A} (add sub : A -> A -> A) tw fuel x m : (0 < m)%nat -> length x = (2 * m)%nat ->
  calculation add sub tw (S fuel) x =
  (let! e := calculation add sub tw fuel (fst (split_array x)) in
   let! o := calculation add sub tw fuel (snd (split_array x)) in
   Ret (fst (butterflies add sub tw (2 * m) 0 e o) ++ snd (butterflies add sub tw (2 * m) 0 e o))).
Proof.
  intros Hm L. cbn [calculation]. rewrite L.
  destruct (Nat.eqb_spec (2 * m) 1) as [X|_]; [lia|].
  destruct (split_array x) as [e o]. cbn [fst snd].
  destruct (calculation add sub tw fuel e) as [e'| |]; cbn [bind]; try reflexivity.
  destruct (calculation add sub tw fuel o) as [o'| |]; cbn [bind]; try reflexivity.
  destruct (butterflies add sub tw (2 * m) 0 e' o') as [lo hi]. cbn [fst snd].
  rewrite Nat.div2_double, skipn_all2, app_nil_r by lia. reflexivity.
Qed.

(** ** C26: correctness *)

Lemma complex_correct m : forall fuel x, (m < fuel)%nat -> length x = (2 ^ m)%nat ->
  exists y, calculation Cplus Cminus complex_twiddle fuel x = Ret y /\ length y = (2 ^ m)%nat /\
    forall k, (k < 2 ^ m)%nat -> nth_error y k = Some (dft x k).
Proof.
  induction m as [|m IH]; intros fuel x Hf L.
  - destruct fuel as [|fuel]; [lia|]. cbn [calculation]. simpl in L. rewrite L. cbn [Nat.eqb].
    exists x. split; [reflexivity|]. split; [exact L|]. intros k Hk. simpl in Hk. assert (k = 0)%nat by lia. subst k.
    destruct x as [|a [|? ?]]; try discriminate. simpl. unfold dft. simpl. f_equal.
    replace (-2 * PI * 0 / 1 * 0) with 0 by field. rewrite cis_0. ring.
  - destruct fuel as [|fuel]; [lia|].
    assert (M0 : (0 < 2 ^ m)%nat) by (pose proof (Nat.pow_nonzero 2 m ltac:(lia)); lia).
    change (2 ^ S m)%nat with (2 * 2 ^ m)%nat in *.
    destruct (split_length x (2 ^ m) L) as [Le Lo].
    destruct (IH fuel (fst (split_array x)) ltac:(lia) Le) as (e & Ee & Lee & He).
    destruct (IH fuel (snd (split_array x)) ltac:(lia) Lo) as (o & Eo & Loo & Ho).
    rewrite (calculation_step _ _ _ fuel x (2 ^ m) M0 L). rewrite Ee, Eo. cbn [bind].
    set (bf := butterflies Cplus Cminus complex_twiddle (2 * 2 ^ m) 0 e o).
    destruct (butterflies_length Cplus Cminus complex_twiddle (2 * 2 ^ m) e 0 o ltac:(lia)) as [B1 B2].
    fold bf in B1, B2.
    eexists; split; [reflexivity|]. split; [rewrite app_length, B1, B2; lia|].
    assert (N0 : INR (2 ^ m) <> 0) by (apply not_0_INR; lia).
    assert (Half : forall k, (k < 2 ^ m)%nat ->
      nth_error (fst bf) k = Some (dft x k) /\ nth_error (snd bf) k = Some (dft x (2 ^ m + k))).
    { intros k Hk. 
      destruct (butterflies_nth Cplus Cminus complex_twiddle (2 * 2 ^ m) e 0 o k _ _ (He k Hk) (Ho k Hk)) as [N1 N2].
      fold bf in N1, N2. rewrite N1, N2.
      unfold dft, complex_twiddle, angle. rewrite L, Le, Lo. rewrite (dsum_split _ x 0), (dsum_split _ x 0).
      rewrite Nat.add_0_l, plus_INR, mult_INR. change (INR 2) with 2.
      replace (2 * (-2 * PI * INR k / (2 * INR (2 ^ m)))) with (-2 * PI * INR k / INR (2 ^ m)) by (field; exact N0).
      split; [reflexivity|].
      replace (2 * (-2 * PI * (INR (2 ^ m) + INR k) / (2 * INR (2 ^ m)))) with (-2 * PI * INR k / INR (2 ^ m) - 2 * PI) by (field; exact N0).
      replace (-2 * PI * (INR (2 ^ m) + INR k) / (2 * INR (2 ^ m))) with (-2 * PI * INR k / (2 * INR (2 ^ m)) - PI) by (field; exact N0).
      rewrite !dsum_period, cis_minus_PI. f_equal. ring. }
    intros k Hk. destruct (Nat.lt_ge_cases k (2 ^ m)) as [H|H].
    + rewrite nth_error_app1 by lia. apply Half. exact H.
    + rewrite nth_error_app2 by lia. rewrite B1, Lee.
      replace (dft x k) with (dft x (2 ^ m + (k - 2 ^ m))) by (f_equal; lia).
      apply Half. lia.
Qed.

(** ** the length check *)

Lemma ln2_pos : 0 < ln 2.
Proof. pose proof ln_lt_2. lra. Qed.

Lemma log2_pow m : ln (INR (2 ^ m)) / ln 2 = INR m.
Proof.
  rewrite pow_INR. change (INR 2) with 2. rewrite ln_pow by lra. field. pose proof ln2_pos. lra.
Qed.
Lemma frac_part_INR_plus m r : 0 <= r < 1 -> frac_part (INR m + r) = r.
Proof.
  intros H. unfold frac_part. 
  assert (E : Int_part (INR m + r) = Z.of_nat m).
  { unfold Int_part. rewrite <- (tech_up (INR m + r) (Z.of_nat m + 1)).
    - lia.
    - rewrite plus_IZR, <- INR_IZR_INZ. simpl. lra.
    - rewrite plus_IZR, <- INR_IZR_INZ. simpl. lra. }
  rewrite E, <- INR_IZR_INZ. ring.
Qed.

Lemma valid_pow2 m : is_valid_length (2 ^ m) = true.
Proof.
  unfold is_valid_length. destruct (2 ^ m)%nat eqn:E; [exfalso; apply (Nat.pow_nonzero 2 m); [lia|exact E]|].
  rewrite <- E, log2_pow. replace (INR m) with (INR m + 0) by ring. rewrite frac_part_INR_plus by lra.
  rewrite Rabs_R0. destruct (Rltb_spec 0 (/ 10000000000)); [reflexivity|lra].
Qed.

(** log2 (1 + u) >= u on [0,1], by concavity *)
Lemma ln_concave u : 0 <= u <= 1 -> u * ln 2 <= ln (1 + u).
Proof.
  intros H. destruct (Req_dec u 0) as [->|N0].
  { rewrite Rplus_0_r, ln_1. lra. }
  destruct (Req_dec u 1) as [->|N1].
  { replace (1 + 1) with 2 by ring. lra. }
  (* exp (u ln 2) <= 1 + u by convexity of exp: use the chord of exp between 0 and ln 2 *)
  assert (G : forall v, 0 < v < 1 -> exp (v * ln 2) <= 1 + v).
  { intros v Hv. 
    destruct (MVT_cor2 (fun t => exp (t * ln 2)) (fun t => exp (t * ln 2) * ln 2) 0 v) as (c1 & E1 & C1); [lra|intros; apply is_derive_Reals; auto_derive; [trivial|ring]|].
    destruct (MVT_cor2 (fun t => exp (t * ln 2)) (fun t => exp (t * ln 2) * ln 2) v 1) as (c2 & E2 & C2); [lra|intros; apply is_derive_Reals; auto_derive; [trivial|ring]|].
    rewrite Rmult_0_l, exp_0 in E1. rewrite Rmult_1_l, exp_ln in E2 by lra.
    assert (M : exp (c1 * ln 2) < exp (c2 * ln 2)) by (apply exp_increasing; pose proof ln2_pos; nra).
    pose proof ln2_pos as L2.
    set (a1 := exp (c1 * ln 2) * ln 2) in *. set (a2 := exp (c2 * ln 2) * ln 2) in *.
    assert (A : a1 < a2) by (unfold a1, a2; nra).
    assert (S1 : a1 * v + a2 * (1 - v) = 1) by lra.
    assert (S2 : a1 <= 1) by nra.
    nra. }
  rewrite <- (ln_exp (u * ln 2)). assert (E := G u ltac:(lra)).
  destruct E as [E|E]; [left; apply ln_increasing; [apply exp_pos|exact E]|rewrite E; lra].
Qed.

(** Below 2^34 elements the floating-point test accepts exactly the powers of two *)
Theorem fft_length_check : forall n, (n < 2 ^ 34)%N -> 
  is_valid_length (N.to_nat n) = true <-> exists m, n = (2 ^ m)%N.
Proof.
  intros n Hn. split.
  - intros H. destruct (N.eq_dec n 0) as [->|N0]; [discriminate|].
    destruct (N.log2_spec n ltac:(lia)) as [Lo Hi]. set (m := N.log2 n) in *.
    exists m. destruct (N.eq_dec n (2 ^ m)) as [E|E]; [exact E|exfalso].
    assert (Lm : (m < 34)%N).
    { apply N.log2_lt_pow2; lia. }
    unfold is_valid_length in H. destruct (N.to_nat n) as [|n'] eqn:En; [lia|]. rewrite <- En in H. clear n' En.
    (* n = 2^m (1 + u), u >= 2^-m *)
    set (p := IZR (2 ^ Z.of_N m)). 
    assert (P0 : 0 < p) by (apply IZR_lt; lia).
    assert (EN : INR (N.to_nat n) = IZR (Z.of_N n)) by (rewrite INR_IZR_INZ; f_equal; lia).
    assert (U : p + 1 <= IZR (Z.of_N n) < 2 * p).
    { unfold p. rewrite <- plus_IZR, <- mult_IZR. split; [apply IZR_le|apply IZR_lt].
      - assert ((2 ^ m)%N < n)%N by lia. assert (X : (2 ^ Z.of_N m)%Z = Z.of_N (2 ^ m)) by (rewrite N2Z.inj_pow; reflexivity). lia.
      - assert (X : (2 ^ Z.of_N m)%Z = Z.of_N (2 ^ m)) by (rewrite N2Z.inj_pow; reflexivity).
        rewrite N.pow_succ_r' in Hi. lia. }
    set (u := IZR (Z.of_N n) / p - 1).
    assert (Eu : IZR (Z.of_N n) = p * (1 + u)) by (unfold u; field; lra).
    assert (U1 : / p <= u < 1).
    { unfold u. split.
      - apply Rmult_le_reg_r with p; [exact P0|]. unfold Rdiv, Rminus. rewrite Rmult_plus_distr_r, Rmult_assoc, Rinv_l by lra. lra.
      - apply Rmult_lt_reg_r with p; [exact P0|]. unfold Rdiv, Rminus. rewrite Rmult_plus_distr_r, Rmult_assoc, Rinv_l by lra. lra. }
    assert (Ip : 0 < / p) by (apply Rinv_0_lt_compat; exact P0).
    assert (Elog : ln (INR (N.to_nat n)) / ln 2 = INR (N.to_nat m) + ln (1 + u) / ln 2).
    { rewrite EN, Eu, ln_mult by lra. pose proof ln2_pos. 
      assert (Ep : p = 2 ^ N.to_nat m). { unfold p. rewrite pow_IZR, N_nat_Z. reflexivity. }
      rewrite Ep, ln_pow by lra. field. lra. }
    rewrite Elog, frac_part_INR_plus in H.
    2: { pose proof ln2_pos as L2. split.
         - apply Rmult_le_pos; [|left; apply Rinv_0_lt_compat; exact L2]. rewrite <- ln_1. left. apply ln_increasing; lra.
         - apply Rmult_lt_reg_r with (ln 2); [exact L2|]. unfold Rdiv. rewrite Rmult_assoc, Rinv_l, Rmult_1_r, Rmult_1_l by lra.
           apply ln_increasing; lra. }
    assert (G : u <= ln (1 + u) / ln 2).
    { pose proof ln2_pos as L2. apply Rmult_le_reg_r with (ln 2); [exact L2|].
      unfold Rdiv. rewrite Rmult_assoc, Rinv_l, Rmult_1_r by lra. apply ln_concave. lra. }
    rewrite Rabs_pos_eq in H by lra.
    destruct (Rltb_spec (ln (1 + u) / ln 2) (/ 10000000000)) as [X|]; [|discriminate].
    assert (B : p <= IZR (2 ^ 33)).
    { unfold p. apply IZR_le. apply Z.pow_le_mono_r; lia. }
    assert (B' : / IZR (2 ^ 33) <= / p) by (apply Rinv_le_contravar; assumption).
    assert (B'' : / 10000000000 < / IZR (2 ^ 33)).
    { apply Rinv_lt_contravar; [apply Rmult_lt_0_compat; [apply IZR_lt; reflexivity|lra]|]. apply IZR_lt. reflexivity. }
    lra.
  - intros (m & ->). replace (N.to_nat (2 ^ m)) with (2 ^ N.to_nat m)%nat; [apply valid_pow2|].
    rewrite Nnat.N2Nat.inj_pow. reflexivity.
Qed.
Print Assumptions fft_length_check.
Example fft_length_check_case : (6 < 2 ^ 34)%N /\ (8 < 2 ^ 34)%N /\ 8%N = (2 ^ 3)%N.
Proof. repeat split. Qed.

(** 2^35 + 1 elements would pass the check: the claim "other lengths are
    rejected" is false without the bound *)
Theorem fft_length_check_refuted : exists n, (forall m, n <> (2 ^ m)%N) /\ is_valid_length (N.to_nat n) = true.
Proof.
  exists (2 ^ 35 + 1)%N. split.
  - intros m E. destruct (N.le_gt_cases m 35) as [L|L].
    + pose proof (N.pow_le_mono_r 2 m 35 ltac:(lia) L). lia.
    + pose proof (N.pow_le_mono_r 2 36 m ltac:(lia) ltac:(lia)). assert ((2 ^ 36 = 68719476736)%N) by reflexivity.
      assert ((2 ^ 35 = 34359738368)%N) by reflexivity. lia.
  - unfold is_valid_length. destruct (N.to_nat (2 ^ 35 + 1)) as [|k] eqn:E; [lia|]. rewrite <- E. clear k E.
    pose proof ln_lt_2 as L2. 
    set (u := / IZR (2 ^ 35)).
    assert (U : 0 < u) by (apply Rinv_0_lt_compat, IZR_lt; reflexivity).
    assert (U' : u < / 20000000000).
    { apply Rinv_lt_contravar; [apply Rmult_lt_0_compat; [lra|apply IZR_lt; reflexivity]|apply IZR_lt; reflexivity]. }
    assert (EN : INR (N.to_nat (2 ^ 35 + 1)) = 2 ^ 35 * (1 + u)).
    { rewrite INR_IZR_INZ, N_nat_Z. unfold u.
      replace (IZR (2 ^ 35)) with (2 ^ 35) by (rewrite (pow_IZR 2 35); reflexivity). 
      replace (IZR (Z.of_N (2 ^ 35 + 1))) with (2 ^ 35 + 1) by (rewrite (pow_IZR 2 35), <- plus_IZR; reflexivity). field. }
    rewrite EN, ln_mult, ln_pow; [|lra|apply pow_lt; lra|lra].
    replace ((INR 35 * ln 2 + ln (1 + u)) / ln 2) with (INR 35 + ln (1 + u) / ln 2) by (field; lra).
    assert (A : 0 <= ln (1 + u)) by (rewrite <- ln_1; left; apply ln_increasing; lra).
    assert (B : ln (1 + u) <= u).
    { rewrite <- (ln_exp u) at 2. left. apply ln_increasing; [lra|]. apply exp_ineq1. lra. }
    assert (Cc : 0 <= ln (1 + u) / ln 2 < / 10000000000).
    { split; [apply Rmult_le_pos; [exact A|left; apply Rinv_0_lt_compat; lra]|].
      apply Rmult_lt_reg_r with (ln 2); [lra|]. unfold Rdiv. rewrite Rmult_assoc, Rinv_l, Rmult_1_r by lra. nra. }
    rewrite frac_part_INR_plus by lra. rewrite Rabs_pos_eq by lra.
    destruct (Rltb_spec (ln (1 + u) / ln 2) (/ 10000000000)); [reflexivity|lra].
Qed.
Print Assumptions fft_length_check_refuted.

(** lengths are rejected by a panic, before any computation *)
Theorem fft_rejects : forall fuel (x : list C) (y : list R),
  (is_valid_length (length x) = false -> fft_complex fuel x = Panic) /\
  (is_valid_length (length y) = false -> fft_real fuel y = Panic) /\
  fft_complex fuel [] = Panic.
Proof.
  intros fuel x y. unfold fft_complex, fft_real. split; [intros ->; reflexivity|]. split; [intros ->; reflexivity|reflexivity].
Qed.
Print Assumptions fft_rejects.

Theorem fft_is_dft : forall m fuel x, (m < fuel)%nat -> length x = (2 ^ m)%nat ->
  exists y, fft_complex fuel x = Ret y /\ length y = length x /\
    forall k, (k < length x)%nat -> nth_error y k = Some (dft x k).
Proof.
  intros m fuel x Hf L. unfold fft_complex. rewrite L, valid_pow2. cbn [assertb].
  destruct (complex_correct m fuel x Hf L) as (y & E & Ly & H). exists y. split; [exact E|]. split; [exact Ly|exact H].
Qed.
Print Assumptions fft_is_dft.

(** the specification on a concrete input: [1, i, 0, 0], k = 1 *)
Example fft_is_dft_case : length [C1; Ci; C0; C0] = (2 ^ 2)%nat /\ dft [C1; Ci; C0; C0] 1 = Cplus C1 C1.
Proof.
  split; [reflexivity|]. unfold dft. cbn [length dsum].
  replace (-2 * PI * INR 1 / INR 4) with (- (PI / 2)) by (simpl; field).
  simpl INR. unfold cis.
  replace (- (PI / 2) * 0) with 0 by ring. replace (- (PI / 2) * 1) with (- (PI / 2)) by ring.
  rewrite cos_0, sin_0, cos_neg, sin_neg, cos_PI2, sin_PI2.
  unfold Cplus, Cmult, Ci. simpl. apply injective_projections; simpl; ring.
Qed.

Lemma nth_error_eq {A} (l1 : list A) : forall l2, (forall k, nth_error l1 k = nth_error l2 k) -> l1 = l2.
Proof.
  induction l1 as [|a l1 IH]; intros [|b l2] H; [reflexivity|discriminate (H O)|discriminate (H O)|].
  pose proof (H O) as H0. injection H0 as ->. f_equal. apply IH. intros k. apply (H (S k)).
Qed.

(** linearity *)
Definition lin (a b : C) (x y : list C) : list C := map (fun p => Cplus (Cmult a (fst p)) (Cmult b (snd p))) (combine x y).
Lemma dsum_lin theta a b x : forall y j, length x = length y ->
  dsum theta (lin a b x y) j = Cplus (Cmult a (dsum theta x j)) (Cmult b (dsum theta y j)).
Proof.
  induction x as [|u x IH]; intros [|v y] j H; try discriminate; [cbn; ring|].
  unfold lin in *. cbn [combine map dsum fst snd]. rewrite IH by (injection H; auto). ring.
Qed.
Theorem fft_linear : forall m fuel a b x y fx fy, (m < fuel)%nat -> length x = (2 ^ m)%nat -> length y = (2 ^ m)%nat ->
  fft_complex fuel x = Ret fx -> fft_complex fuel y = Ret fy ->
  fft_complex fuel (lin a b x y) = Ret (lin a b fx fy).
Proof.
  intros m fuel a b x y fx fy Hf Lx Ly Hx Hy.
  assert (Ll : length (lin a b x y) = (2 ^ m)%nat) by (unfold lin; rewrite map_length, combine_length; lia).
  destruct (fft_is_dft m fuel x Hf Lx) as (fx' & E & Lfx & Nx). rewrite Hx in E. injection E as <-.
  destruct (fft_is_dft m fuel y Hf Ly) as (fy' & E & Lfy & Ny). rewrite Hy in E. injection E as <-.
  destruct (fft_is_dft m fuel _ Hf Ll) as (fl & E & Lfl & Nl). rewrite E. f_equal.
  apply nth_error_eq. intros k. destruct (Nat.lt_ge_cases k (2 ^ m)) as [K|K].
  - rewrite Nl by lia. unfold lin at 2. rewrite nth_error_map.
    assert (X : nth_error (combine fx fy) k = Some (dft x k, dft y k)).
    { assert (G : forall (l1 l2 : list C) i u v, nth_error l1 i = Some u -> nth_error l2 i = Some v -> nth_error (combine l1 l2) i = Some (u, v)).
      { clear. induction l1 as [|a l1 IH]; intros [|b l2] [|i] u v H1 H2; try discriminate; simpl in *; [congruence|auto]. }
      apply G; [apply Nx; lia|apply Ny; lia]. }
    rewrite X. cbn [option_map fst snd]. f_equal. unfold dft. rewrite Ll, Lx, Ly, dsum_lin by lia. reflexivity.
  - rewrite (proj2 (nth_error_None fl k)) by lia. symmetry. apply nth_error_None.
    unfold lin. rewrite map_length, combine_length. lia.
Qed.
Print Assumptions fft_linear.

(** Parseval *)
Definition sq (z : C) : R := fst z * fst z + snd z * snd z.
Fixpoint energy (x : list C) : R := match x with [] => 0 | a :: x' => sq a + energy x' end.
Lemma energy_app x y : energy (x ++ y) = energy x + energy y.
Proof. induction x as [|a x IH]; simpl; [ring|rewrite IH; ring]. Qed.
Lemma energy_split x : energy x = energy (fst (split_array x)) + energy (snd (split_array x)).
Proof.
  induction x as [|a|a b x IH] using pair_ind; [simpl; ring|simpl; ring|].
  cbn [split_array]. destruct (split_array x). cbn [fst snd energy] in *. rewrite IH. ring.
Qed.
Lemma sq_cis t z : sq (Cmult (cis t) z) = sq z.
Proof.
  unfold sq, cis, Cmult. cbn [fst snd]. pose proof (sin2_cos2 t) as H. unfold Rsqr in H.
  transitivity ((sin t * sin t + cos t * cos t) * (fst z * fst z + snd z * snd z)); [ring|rewrite H; ring].
Qed.
Lemma energy_butterflies n e : forall k o, length e = length o ->
  energy (fst (butterflies Cplus Cminus complex_twiddle n k e o)) + energy (snd (butterflies Cplus Cminus complex_twiddle n k e o))
  = 2 * (energy e + energy o).
Proof.
  induction e as [|a e IH]; intros k [|b o] H; try discriminate; [simpl; ring|].
  cbn [butterflies]. specialize (IH (S k) o ltac:(injection H; auto)).
  destruct (butterflies Cplus Cminus complex_twiddle n (S k) e o) as [lo hi]. cbn [fst snd energy] in *.
  unfold complex_twiddle. rewrite <- (sq_cis (angle n k) b). set (t := Cmult (cis (angle n k)) b).
  assert (P : sq (Cplus a t) + sq (Cminus a t) = 2 * (sq a + sq t)).
  { unfold sq, Cplus, Cminus, Copp. cbn [fst snd]. unfold Cplus, Copp. cbn [fst snd]. ring. }
  lra.
Qed.
Theorem fft_parseval : forall m fuel x y, (m < fuel)%nat -> length x = (2 ^ m)%nat ->
  fft_complex fuel x = Ret y -> energy y = INR (length x) * energy x.
Proof.
  intros m fuel x y Hf L H. unfold fft_complex in H. rewrite L, valid_pow2 in H. cbn [assertb] in H. rewrite L.
  revert fuel x y Hf L H. induction m as [|m IH]; intros fuel x y Hf L H.
  - destruct fuel as [|fuel]; [lia|]. cbn [calculation] in H. simpl in L. rewrite L in H. injection H as <-. simpl. ring.
  - destruct fuel as [|fuel]; [lia|].
    assert (M0 : (0 < 2 ^ m)%nat) by (pose proof (Nat.pow_nonzero 2 m ltac:(lia)); lia).
    change (2 ^ S m)%nat with (2 * 2 ^ m)%nat in *. destruct (split_length x (2 ^ m) L) as [Le Lo].
    rewrite (calculation_step _ _ _ fuel x (2 ^ m) M0 L) in H.
    apply bind_Ret_inv in H as (e & He & H). apply bind_Ret_inv in H as (o & Ho & H). injection H as <-.
    destruct (complex_correct m fuel _ ltac:(lia) Le) as (e' & E & Lee & _). rewrite He in E. injection E as <-.
    destruct (complex_correct m fuel _ ltac:(lia) Lo) as (o' & E & Loo & _). rewrite Ho in E. injection E as <-.
    rewrite energy_app, energy_butterflies by lia.
    rewrite (IH fuel _ _ ltac:(lia) Le He), (IH fuel _ _ ltac:(lia) Lo Ho), (energy_split x), mult_INR. simpl INR. ring.
Qed.
Print Assumptions fft_parseval.
Example fft_parseval_case : length [C1; Ci; C0; C0] = (2 ^ 2)%nat /\ energy [C1; Ci; C0; C0] = 2.
Proof. split; [reflexivity|]. unfold energy, sq, Ci. simpl. ring. Qed.

(** distinct inputs have distinct transforms *)
Lemma energy_nonneg x : 0 <= energy x.
Proof. induction x as [|a x IH]; simpl; [lra|]. unfold sq. nra. Qed.
Lemma energy_zero x : energy x = 0 -> forall z, In z x -> z = C0.
Proof.
  induction x as [|a x IH]; intros H z Hz; [destruct Hz|]. cbn [energy] in H.
  pose proof (energy_nonneg x). assert (0 <= sq a) by (unfold sq; nra).
  destruct Hz as [<-|Hz]; [|apply IH; [lra|exact Hz]].
  assert (sq a = 0) by lra. unfold sq in *. apply injective_projections; simpl; nra.
Qed.
Theorem fft_injective : forall m fuel x y fx, (m < fuel)%nat -> length x = (2 ^ m)%nat -> length y = (2 ^ m)%nat ->
  fft_complex fuel x = Ret fx -> fft_complex fuel y = Ret fx -> x = y.
Proof.
  intros m fuel x y fx Hf Lx Ly Hx Hy.
  pose proof (fft_linear m fuel C1 (Copp C1) x y fx fx Hf Lx Ly Hx Hy) as H.
  assert (Ll : length (lin C1 (Copp C1) x y) = (2 ^ m)%nat) by (unfold lin; rewrite map_length, combine_length; lia).
  pose proof (fft_parseval m fuel _ _ Hf Ll H) as P.
  assert (Z : energy (lin C1 (Copp C1) fx fx) = 0).
  { clear. unfold lin. induction fx as [|a fx IH]; [reflexivity|]. cbn [combine map energy fst snd]. rewrite IH.
    replace (Cplus (Cmult C1 a) (Cmult (Copp C1) a)) with C0 by ring. unfold sq. simpl. ring. }
  rewrite Z, Ll in P. assert (N0 : INR (2 ^ m) <> 0) by (apply not_0_INR; apply Nat.pow_nonzero; lia).
  assert (E : energy (lin C1 (Copp C1) x y) = 0) by (symmetry in P; apply Rmult_integral in P; tauto).
  pose proof (energy_zero _ E) as Zs. clear - Lx Ly Zs. 
  assert (L : length x = length y) by lia. clear Lx Ly. revert y L Zs.
  induction x as [|a x IH]; intros [|b y] L Zs; try discriminate; [reflexivity|].
  f_equal.
  - assert (X : Cplus (Cmult C1 a) (Cmult (Copp C1) b) = C0) by (apply Zs; left; reflexivity).
    replace a with (Cplus (Cplus (Cmult C1 a) (Cmult (Copp C1) b)) b) by ring. rewrite X. ring.
  - apply IH; [injection L; auto|]. intros z Hz. apply Zs. right. exact Hz.
Qed.
Print Assumptions fft_injective.

(** ** C27: the real transform *)

(** [fft_real] is not the magnitude spectrum: a unit impulse at index 1 has
    magnitudes 1, and [fft_real] returns negative entries *)
Lemma real_twiddle_id n k v : real_twiddle n k v = v.
Proof. unfold real_twiddle. rewrite Cmod_cis. ring. Qed.

Theorem fft_real_magnitude_refuted : exists x, exists y, fft_real 3 x = Ret y /\
  length x = 4%nat /\ nth_error y 2 = Some (-1) /\ Cmod (dft (map RtoC x) 2) = 1.
Proof.
  exists [0; 1; 0; 0]. unfold fft_real. 
  replace (is_valid_length (length [0; 1; 0; 0])) with true by (symmetry; apply (valid_pow2 2)).
  cbn [assertb]. eexists. split; [reflexivity|]. split; [reflexivity|]. split.
  - cbn. rewrite !real_twiddle_id. f_equal. ring.
  - unfold dft. cbn [map length dsum]. replace (-2 * PI * INR 2 / INR 4) with (- PI) by (simpl; field).
    simpl INR.
    match goal with |- Cmod ?z = 1 => replace z with (Copp C1) end.
    + rewrite Cmod_opp. apply Cmod_1.
    + unfold cis. replace (- PI * 1) with (- PI) by ring. rewrite cos_neg, sin_neg, cos_PI, sin_PI.
      apply injective_projections; simpl; ring.
Qed.
Print Assumptions fft_real_magnitude_refuted.

(** what it computes: the twiddle factors are 1, so it is the (real) Walsh-Hadamard
    transform in natural order: entry k is the sum of (+/-) x_j; entry 0 is the plain sum *)
Fixpoint walsh_sign (m : nat) (j k : nat) : R :=
  match m with
  | O => 1
  | S m' =>
      (* the low bit of j is paired with the high bit of k *)
      (if (Nat.odd j && (2 ^ m' <=? k)%nat)%bool then -1 else 1) *
      walsh_sign m' (Nat.div2 j) (if (2 ^ m' <=? k)%nat then k - 2 ^ m' else k)
  end.
Fixpoint wsum (m k : nat) (x : list R) (j : nat) : R :=
  match x with [] => 0 | a :: x' => walsh_sign m j k * a + wsum m k x' (S j) end.
Lemma wsum_split m k x : forall j,
  wsum (S m) k x (2 * j) =
  wsum m (if (2 ^ m <=? k)%nat then k - 2 ^ m else k) (fst (split_array x)) j +
  (if (2 ^ m <=? k)%nat then -1 else 1) * wsum m (if (2 ^ m <=? k)%nat then k - 2 ^ m else k) (snd (split_array x)) j.
Proof.
  induction x as [|a|a b x IH] using pair_ind; intros j.
  - cbn. ring.
  - cbn [split_array fst snd wsum walsh_sign]. rewrite Nat.odd_mul, Nat.div2_double. cbn [Nat.odd Nat.even negb andb]. ring.
  - cbn [split_array]. destruct (split_array x) as [e o]. cbn [fst snd] in IH |- *.
    cbn [wsum]. replace (S (S (2 * j))) with (2 * S j)%nat by lia. rewrite IH. cbn [walsh_sign].
    rewrite Nat.div2_double, (Nat.div2_succ_double j).
    replace (Nat.odd (2 * j)) with false by (rewrite Nat.odd_mul; reflexivity).
    replace (Nat.odd (S (2 * j))) with true by (rewrite Nat.odd_succ, Nat.even_mul; reflexivity).
    cbn [andb]. destruct (2 ^ m <=? k)%nat; ring.
Qed.
Theorem fft_real_is_walsh : forall m fuel x, (m < fuel)%nat -> length x = (2 ^ m)%nat ->
  exists y, fft_real fuel x = Ret y /\ length y = length x /\
    forall k, (k < length x)%nat -> nth_error y k = Some (wsum m k x 0).
Proof.
  intros m fuel x Hf L. unfold fft_real. rewrite L, valid_pow2. cbn [assertb].
  revert fuel x Hf L. induction m as [|m IH]; intros fuel x Hf L.
  - destruct fuel as [|fuel]; [lia|]. cbn [calculation]. simpl in L. rewrite L. cbn [Nat.eqb].
    exists x. split; [reflexivity|]. split; [exact L|]. intros k Hk. simpl in Hk. assert (k = 0)%nat by lia. subst k.
    destruct x as [|a [|? ?]]; try discriminate. simpl. f_equal. ring.
  - destruct fuel as [|fuel]; [lia|].
    assert (M0 : (0 < 2 ^ m)%nat) by (pose proof (Nat.pow_nonzero 2 m ltac:(lia)); lia).
    change (2 ^ S m)%nat with (2 * 2 ^ m)%nat in *.
    destruct (split_length x (2 ^ m) L) as [Le Lo].
    destruct (IH fuel (fst (split_array x)) ltac:(lia) Le) as (e & Ee & Lee & He).
    destruct (IH fuel (snd (split_array x)) ltac:(lia) Lo) as (o & Eo & Loo & Ho).
    rewrite (calculation_step _ _ _ fuel x (2 ^ m) M0 L). rewrite Ee, Eo. cbn [bind].
    set (bf := butterflies Rplus Rminus real_twiddle (2 * 2 ^ m) 0 e o).
    destruct (butterflies_length Rplus Rminus real_twiddle (2 * 2 ^ m) e 0 o ltac:(lia)) as [B1 B2].
    fold bf in B1, B2.
    eexists; split; [reflexivity|]. split; [rewrite app_length, B1, B2; lia|].
    intros k Hk. change 0%nat with (2 * 0)%nat. rewrite (wsum_split m k x 0). change (2 * 0)%nat with 0%nat. destruct (Nat.leb_spec (2 ^ m) k) as [K|K].
    + rewrite nth_error_app2 by lia. rewrite B1, Lee.
      destruct (butterflies_nth Rplus Rminus real_twiddle (2 * 2 ^ m) e 0 o (k - 2 ^ m) _ _ (He (k - 2 ^ m)%nat ltac:(lia)) (Ho (k - 2 ^ m)%nat ltac:(lia))) as [_ N2].
      fold bf in N2. rewrite N2, real_twiddle_id. f_equal. ring.
    + rewrite nth_error_app1 by lia.
      destruct (butterflies_nth Rplus Rminus real_twiddle (2 * 2 ^ m) e 0 o k _ _ (He k ltac:(lia)) (Ho k ltac:(lia))) as [N1 _].
      fold bf in N1. rewrite N1, real_twiddle_id. f_equal. ring.
Qed.
Print Assumptions fft_real_is_walsh.
Example fft_real_case : length [0; 1; 0; 0] = (2 ^ 2)%nat /\ wsum 2 1 [0; 1; 0; 0] 0 = 1 /\ wsum 2 2 [0; 1; 0; 0] 0 = -1.
Proof. split; [reflexivity|]. split; cbn; ring. Qed.
