(** C106: the complex fast Fourier transform computed with binary64 arithmetic. *)
From Coq Require Import ZArith Reals Lra Lia List Bool Psatz.
From Flocq Require Import Core.Core IEEE754.BinarySingleNaN Relative.
From Coquelicot Require Import Complex Rcomplements.
From Verif Require IvConst.
From Verif Require Import Res FftModel FftProps F64Model F64Base F64Sum F64Order F64Quad F64FftModel.
Import ListNotations.
Open Scope R_scope.

Definition cval (z : c64) : C := (val (fst z), val (snd z)).
Definition cfin (z : c64) : Prop := fin (fst z) /\ fin (snd z).
Lemma cmod_sum (a b : R) : Cmod (a, b) <= Rabs a + Rabs b.
Proof.
  unfold Cmod. cbn [fst snd]. pose proof (Rabs_pos a). pose proof (Rabs_pos b). rewrite <- (sqrt_Rsqr (Rabs a + Rabs b)) by lra. apply sqrt_le_1_alt.
  unfold Rsqr. rewrite <- (pow2_abs a), <- (pow2_abs b). nra.
Qed.
Lemma sum_cmod (z : C) : (Rabs (fst z) + Rabs (snd z)) ^ 2 <= 2 * Cmod z ^ 2.
Proof.
  destruct z as [a b]. cbn [fst snd]. unfold Cmod. cbn [fst snd]. rewrite pow2_sqrt by nra. rewrite <- (pow2_abs a), <- (pow2_abs b). pose proof (pow2_ge_0 (Rabs a - Rabs b)). nra.
Qed.
Lemma sum_prod (x y : C) : (Rabs (fst x) + Rabs (snd x)) * (Rabs (fst y) + Rabs (snd y)) <= 2 * Cmod x * Cmod y.
Proof.
  pose proof (sum_cmod x) as X. pose proof (sum_cmod y) as Y. pose proof (Cmod_ge_0 x). pose proof (Cmod_ge_0 y).
  set (p := Rabs (fst x) + Rabs (snd x)) in *. set (q := Rabs (fst y) + Rabs (snd y)) in *.
  assert (P : 0 <= p) by (unfold p; pose proof (Rabs_pos (fst x)); pose proof (Rabs_pos (snd x)); lra). assert (Q : 0 <= q) by (unfold q; pose proof (Rabs_pos (fst y)); pose proof (Rabs_pos (snd y)); lra).
  apply Rsqr_incr_0_var; [|nra]. unfold Rsqr. replace (p * q * (p * q)) with (p ^ 2 * q ^ 2) by ring. replace (2 * Cmod x * Cmod y * (2 * Cmod x * Cmod y)) with (2 * Cmod x ^ 2 * (2 * Cmod y ^ 2)) by ring.
  apply Rmult_le_compat; try assumption; apply pow2_ge_0.
Qed.
Lemma cmod_scale (z w : C) t : 0 <= t -> Rabs (fst z) <= t * Rabs (fst w) -> Rabs (snd z) <= t * Rabs (snd w) -> Cmod z <= t * Cmod w.
Proof.
  intros T A B. unfold Cmod. rewrite <- (sqrt_Rsqr t T), <- sqrt_mult_alt by apply Rle_0_sqr. apply sqrt_le_1_alt. unfold Rsqr.
  rewrite <- (pow2_abs (fst z)), <- (pow2_abs (snd z)), <- (pow2_abs (fst w)), <- (pow2_abs (snd w)). pose proof (Rabs_pos (fst z)). pose proof (Rabs_pos (snd z)). pose proof (Rabs_pos (fst w)). pose proof (Rabs_pos (snd w)).
  assert (Rabs (fst z) ^ 2 <= (t * Rabs (fst w)) ^ 2) by (apply pow_incr; lra). assert (Rabs (snd z) ^ 2 <= (t * Rabs (snd w)) ^ 2) by (apply pow_incr; lra). nra.
Qed.
(** ** One operation *)
Lemma cadd64_err x y : cfin (cadd64 x y) -> cfin x /\ cfin y /\ Cmod (Cminus (cval (cadd64 x y)) (Cplus (cval x) (cval y))) <= u * Cmod (Cplus (cval x) (cval y)).
Proof.
  intros [A B]. unfold cadd64 in *. cbn [fst snd] in *. destruct (fadd_fin _ _ A) as (A1 & A2 & VA & _). destruct (fadd_fin _ _ B) as (B1 & B2 & VB & _).
  split; [split; assumption|]. split; [split; assumption|]. apply cmod_scale; [left; apply u_pos| |]; cbn [Cminus Cplus Copp cval fst snd]; [rewrite VA | rewrite VB]; apply rnd_sum_err; apply val_fmt.
Qed.
Lemma csub64_err x y : cfin (csub64 x y) -> cfin x /\ cfin y /\ Cmod (Cminus (cval (csub64 x y)) (Cminus (cval x) (cval y))) <= u * Cmod (Cminus (cval x) (cval y)).
Proof.
  intros [A B]. unfold csub64 in *. cbn [fst snd] in *. destruct (fsub_fin _ _ A) as (A1 & A2 & VA & _). destruct (fsub_fin _ _ B) as (B1 & B2 & VB & _).
  split; [split; assumption|]. split; [split; assumption|]. apply cmod_scale; [left; apply u_pos| |]; cbn [Cminus Cplus Copp cval fst snd]; [rewrite VA | rewrite VB].
  - apply (rnd_sum_err (val (fst x)) (- val (fst y))); [apply val_fmt|apply fmt_opp, val_fmt].
  - apply (rnd_sum_err (val (snd x)) (- val (snd y))); [apply val_fmt|apply fmt_opp, val_fmt].
Qed.
Lemma two_prod a b : forall p q, Rabs (p - a) <= u * Rabs a + eta -> Rabs (q - b) <= u * Rabs b + eta -> fmt p -> fmt q ->
  Rabs (rnd (p + q) - (a + b)) <= ((1 + u) ^ 2 - 1) * (Rabs a + Rabs b) + 2 * (1 + u) * eta.
Proof.
  intros p q P Q Fp Fq. pose proof (rnd_sum_err p q Fp Fq) as E. pose proof u_pos. pose proof eta_pos. pose proof (Rabs_pos a). pose proof (Rabs_pos b).
  assert (PQ : Rabs (p + q - (a + b)) <= u * (Rabs a + Rabs b) + 2 * eta). { replace (p + q - (a + b)) with ((p - a) + (q - b)) by ring. eapply Rle_trans; [apply Rabs_triang|]. lra. }
  assert (S : Rabs (p + q) <= Rabs a + Rabs b + (u * (Rabs a + Rabs b) + 2 * eta)). { eapply Rle_trans; [apply (near_abs _ _ _ PQ)|]. pose proof (Rabs_triang a b). lra. }
  eapply Rle_trans; [apply (tri _ (p + q))|]. nra.
Qed.
Lemma cmul64_err x y : cfin (cmul64 x y) -> cfin x /\ cfin y /\
  Cmod (Cminus (cval (cmul64 x y)) (Cmult (cval x) (cval y))) <= 2 * ((1 + u) ^ 2 - 1) * (Cmod (cval x) * Cmod (cval y)) + 5 * eta.
Proof.
  intros [A B]. unfold cmul64 in *. cbn [fst snd] in *. destruct (fsub_fin _ _ A) as (A1 & A2 & VA & _). destruct (fadd_fin _ _ B) as (B1 & B2 & VB & _).
  destruct (fmul_fin _ _ A1) as (X1 & Y1 & V1 & _). destruct (fmul_fin _ _ A2) as (X2 & Y2 & V2 & _). destruct (fmul_fin _ _ B1) as (_ & _ & V3 & _). destruct (fmul_fin _ _ B2) as (_ & _ & V4 & _).
  split; [split; assumption|]. split; [split; assumption|].
  set (a := val (fst x)) in *. set (b := val (snd x)) in *. set (c := val (fst y)) in *. set (d := val (snd y)) in *.
  assert (RE : Rabs (val (fsub (fmul (fst x) (fst y)) (fmul (snd x) (snd y))) - (a * c - b * d)) <= ((1 + u) ^ 2 - 1) * (Rabs a * Rabs c + Rabs b * Rabs d) + 2 * (1 + u) * eta).
  { rewrite VA, V1, V2. unfold Rminus at 1. replace (a * c - b * d) with (a * c + - (b * d)) by ring.
    replace (Rabs a * Rabs c + Rabs b * Rabs d) with (Rabs (a * c) + Rabs (- (b * d))) by (rewrite Rabs_Ropp, !Rabs_mult; reflexivity).
    apply (two_prod (a * c) (- (b * d)) (rnd (a * c)) (- rnd (b * d))).
    - apply rnd_abs_err.
    - replace (- rnd (b * d) - - (b * d)) with (- (rnd (b * d) - b * d)) by ring. rewrite !Rabs_Ropp. apply rnd_abs_err.
    - apply rnd_fmt.
    - apply fmt_opp, rnd_fmt. }
  assert (IM : Rabs (val (fadd (fmul (fst x) (snd y)) (fmul (snd x) (fst y))) - (a * d + b * c)) <= ((1 + u) ^ 2 - 1) * (Rabs a * Rabs d + Rabs b * Rabs c) + 2 * (1 + u) * eta).
  { rewrite VB, V3, V4. replace (Rabs a * Rabs d + Rabs b * Rabs c) with (Rabs (a * d) + Rabs (b * c)) by (rewrite !Rabs_mult; reflexivity).
    apply two_prod; try apply rnd_abs_err; apply rnd_fmt. }
  assert (SP := sum_prod (cval x) (cval y)). cbn [cval fst snd] in SP. fold a b c d in SP.
  unfold Cminus, Cmult, Copp, Cplus. cbn [cval fst snd]. fold a b c d. eapply Rle_trans; [apply cmod_sum|].
  change (Rabs (val (fsub (fmul (fst x) (fst y)) (fmul (snd x) (snd y))) + - (a * c - b * d))) with (Rabs (val (fsub (fmul (fst x) (fst y)) (fmul (snd x) (snd y))) - (a * c - b * d))).
  change (Rabs (val (fadd (fmul (fst x) (snd y)) (fmul (snd x) (fst y))) + - (a * d + b * c))) with (Rabs (val (fadd (fmul (fst x) (snd y)) (fmul (snd x) (fst y))) - (a * d + b * c))).
  pose proof u_pos. pose proof u_tiny. pose proof eta_pos. set (r := (1 + u) ^ 2 - 1) in *. assert (R0 : 0 <= r) by (unfold r; nra).
  assert (E : r * (Rabs a * Rabs c + Rabs b * Rabs d) + r * (Rabs a * Rabs d + Rabs b * Rabs c) <= 2 * r * (Cmod (cval x) * Cmod (cval y))).
  { replace (r * (Rabs a * Rabs c + Rabs b * Rabs d) + r * (Rabs a * Rabs d + Rabs b * Rabs c)) with (r * ((Rabs a + Rabs b) * (Rabs c + Rabs d))) by ring. replace (2 * r * (Cmod (cval x) * Cmod (cval y))) with (r * (2 * Cmod (cval x) * Cmod (cval y))) by ring. apply Rmult_le_compat_l; assumption. }
  change (Cmod (a, b)) with (Cmod (cval x)). change (Cmod (c, d)) with (Cmod (cval y)). unfold Cminus in *. nra.
Qed.

(** ** The exact transform, one level *)
Lemma map_split {A B} (f : A -> B) x : split_array (map f x) = (map f (fst (split_array x)), map f (snd (split_array x))).
Proof.
  induction x as [|a|a b x IH] using pair_ind; try reflexivity. cbn [map split_array]. rewrite IH. destruct (split_array x). reflexivity.
Qed.
Lemma dft_split (x : list C) M k : (0 < M)%nat -> length x = (2 * M)%nat -> (k < M)%nat ->
  dft x k = Cplus (dft (fst (split_array x)) k) (Cmult (cis (angle (2 * M) k)) (dft (snd (split_array x)) k)) /\
  dft x (M + k) = Cminus (dft (fst (split_array x)) k) (Cmult (cis (angle (2 * M) k)) (dft (snd (split_array x)) k)).
Proof.
  intros M0 L K. destruct (split_length x M L) as [Le Lo]. assert (N0 : INR M <> 0) by (apply not_0_INR; lia).
  unfold dft, angle. rewrite L, Le, Lo. rewrite (dsum_split _ x 0), (dsum_split _ x 0). rewrite plus_INR, mult_INR. change (INR 2) with 2.
  replace (2 * (-2 * PI * INR k / (2 * INR M))) with (-2 * PI * INR k / INR M) by (field; exact N0).
  split; [reflexivity|].
  replace (2 * (-2 * PI * (INR M + INR k) / (2 * INR M))) with (-2 * PI * INR k / INR M - 2 * PI) by (field; exact N0).
  replace (-2 * PI * (INR M + INR k) / (2 * INR M)) with (-2 * PI * INR k / (2 * INR M) - PI) by (field; exact N0).
  rewrite !dsum_period, cis_minus_PI. ring.
Qed.
Definition norm1 (x : list C) : R := fold_right Rplus 0 (map Cmod x).
Lemma norm1_pos x : 0 <= norm1 x. Proof. induction x as [|a x IH]; cbn; [lra|]. pose proof (Cmod_ge_0 a). fold (norm1 x). lra. Qed.
Lemma norm1_split x : norm1 x = norm1 (fst (split_array x)) + norm1 (snd (split_array x)).
Proof.
  induction x as [|a|a b x IH] using pair_ind; [cbn; ring|cbn; ring|]. cbn [split_array]. destruct (split_array x) as [e o]. cbn [fst snd] in *. unfold norm1 in *. cbn [map fold_right]. rewrite IH. ring.
Qed.
Lemma dsum_bound theta x : forall j, Cmod (dsum theta x j) <= norm1 x.
Proof.
  induction x as [|a x IH]; intros j; cbn [dsum]; [rewrite Cmod_0; cbn; lra|]. eapply Rle_trans; [apply Cmod_triangle|]. rewrite Cmod_mult, Cmod_cis, Rmult_1_r. unfold norm1. cbn [map fold_right]. apply Rplus_le_compat_l. apply IH.
Qed.
Lemma dft_bound x k : Cmod (dft x k) <= norm1 x. Proof. apply dsum_bound. Qed.

(** ** One level of the computed transform *)
Definition cfac (d : R) : R := 2 * ((1 + u) ^ 2 - 1) * (1 + d) + d.
Definition gfac (d : R) : R := (1 + u) * (1 + cfac d).
Definition wfac (m : nat) : R := 3 * (3 ^ m - 1) * eta.
Lemma cfac_range d : 0 <= d <= / 100 -> 0 <= cfac d <= / 50.
Proof. intros D. unfold cfac. pose proof u_pos. pose proof u_tiny. assert (0 <= (1 + u) ^ 2 - 1 <= / 100000) by nra. nra. Qed.
Lemma gfac_ge d : 0 <= d <= / 100 -> 1 <= gfac d.
Proof. intros D. pose proof (cfac_range d D). pose proof u_pos. unfold gfac. nra. Qed.
Lemma wfac_S m : wfac (S m) = 3 * wfac m + 6 * eta. Proof. unfold wfac. cbn [pow]. ring. Qed.
Lemma wfac_pos m : 0 <= wfac m. Proof. unfold wfac. pose proof eta_pos. assert (1 <= 3 ^ m) by (apply pow_R1_Rle; lra). apply Rmult_le_pos; lra. Qed.
Lemma cmod_near (a b : C) d : Cmod (Cminus a b) <= d -> Cmod a <= Cmod b + d.
Proof. intros H. replace a with (Cplus b (Cminus a b)) by ring. eapply Rle_trans; [apply Cmod_triangle|]. lra. Qed.
Lemma tw_err d (w : c64) (W : C) (o : c64) (O : C) G No wm : 0 <= d <= / 100 -> 1 <= G -> 0 <= No -> 0 <= wm -> Cmod W = 1 -> Cmod (Cminus (cval w) W) <= d ->
  Cmod O <= No -> Cmod (Cminus (cval o) O) <= (G - 1) * No + wm -> cfin (cmul64 w o) ->
  Cmod (Cminus (cval (cmul64 w o)) (Cmult W O)) <= (G * (1 + cfac d) - 1) * No + wm * (1 + cfac d) + 5 * eta.
Proof.
  intros D HG N0 W0 W1 HW HO Ho F. destruct (cmul64_err w o F) as (_ & _ & E).
  assert (BW : Cmod (cval w) <= 1 + d) by (pose proof (cmod_near _ _ _ HW); lra). assert (BO : Cmod (cval o) <= G * No + wm) by (pose proof (cmod_near _ _ _ Ho); lra).
  replace (Cminus (cval (cmul64 w o)) (Cmult W O)) with (Cplus (Cplus (Cminus (cval (cmul64 w o)) (Cmult (cval w) (cval o))) (Cmult (Cminus (cval w) W) (cval o))) (Cmult W (Cminus (cval o) O))) by ring.
  eapply Rle_trans; [apply Cmod_triangle|]. eapply Rle_trans; [apply Rplus_le_compat_r, Cmod_triangle|]. rewrite !Cmod_mult, W1, Rmult_1_l.
  pose proof (Cmod_ge_0 (cval w)). pose proof (Cmod_ge_0 (cval o)). pose proof (Cmod_ge_0 (Cminus (cval w) W)). pose proof u_pos. set (r := 2 * ((1 + u) ^ 2 - 1)) in *. assert (R0 : 0 <= r) by (unfold r; nra).
  assert (T1 : r * (Cmod (cval w) * Cmod (cval o)) <= r * (1 + d) * (G * No + wm)). { rewrite Rmult_assoc. apply Rmult_le_compat_l; [exact R0|]. apply Rmult_le_compat; assumption. }
  assert (T2 : Cmod (Cminus (cval w) W) * Cmod (cval o) <= d * (G * No + wm)) by (apply Rmult_le_compat; assumption).
  unfold cfac. fold r. replace ((G * (1 + (r * (1 + d) + d)) - 1) * No + wm * (1 + (r * (1 + d) + d)) + 5 * eta) with (r * (1 + d) * (G * No + wm) + 5 * eta + d * (G * No + wm) + ((G - 1) * No + wm)) by ring. lra.
Qed.
Lemma comb_err d G Ne No wm (r s S : C) (e t E T : C) : 0 <= d <= / 100 -> 1 <= G -> 0 <= Ne -> 0 <= No -> 0 <= wm ->
  Cmod (Cminus e E) <= (G - 1) * Ne + wm -> Cmod (Cminus t T) <= (G * (1 + cfac d) - 1) * No + wm * (1 + cfac d) + 5 * eta -> Cmod S <= Ne + No ->
  Cmod (Cminus s S) <= Cmod (Cminus e E) + Cmod (Cminus t T) -> Cmod (Cminus r s) <= u * Cmod s ->
  Cmod (Cminus r S) <= (gfac d * G - 1) * (Ne + No) + (3 * wm + 6 * eta).
Proof.
  intros D HG N0 N1 W0 HE HT HS Hs Hr. pose proof (cfac_range d D) as C. pose proof u_pos. pose proof u_tiny. pose proof eta_pos.
  replace (Cminus r S) with (Cplus (Cminus r s) (Cminus s S)) by ring. eapply Rle_trans; [apply Cmod_triangle|].
  assert (BS : Cmod s <= Ne + No + Cmod (Cminus s S)) by (pose proof (cmod_near s S _ (Rle_refl _)); lra).
  set (c := cfac d) in *. assert (X : Cmod (Cminus s S) <= (G * (1 + c) - 1) * (Ne + No) + wm * (2 + c) + 5 * eta). { assert ((G - 1) * Ne <= (G * (1 + c) - 1) * Ne) by (apply Rmult_le_compat_r; [exact N0|nra]). lra. }
  assert (Y : u * Cmod s + Cmod (Cminus s S) <= (1 + u) * ((G * (1 + c) - 1) * (Ne + No) + wm * (2 + c) + 5 * eta) + u * (Ne + No)). { apply Rle_trans with (u * (Ne + No + Cmod (Cminus s S)) + Cmod (Cminus s S)); [|nra]. apply Rplus_le_compat_r. apply Rmult_le_compat_l; lra. }
  assert (Z : (1 + u) * (wm * (2 + c) + 5 * eta) <= 3 * wm + 6 * eta). { assert (A : (1 + u) * (2 + c) <= 3) by nra. assert (B : (1 + u) * 5 <= 6) by nra. replace ((1 + u) * (wm * (2 + c) + 5 * eta)) with ((1 + u) * (2 + c) * wm + (1 + u) * 5 * eta) by ring. apply Rplus_le_compat; apply Rmult_le_compat_r; lra. }
  unfold gfac. fold c. replace (((1 + u) * (1 + c) * G - 1) * (Ne + No)) with ((1 + u) * ((G * (1 + c) - 1) * (Ne + No)) + u * (Ne + No)) by ring. lra.
Qed.
Lemma nth_lt {A} (l : list A) k : (k < length l)%nat -> exists z, nth_error l k = Some z.
Proof. intros H. destruct (nth_error l k) eqn:E; [eexists; reflexivity|]. apply nth_error_None in E. lia. Qed.
Lemma nth_forall {A} (P : A -> Prop) l k z : List.Forall P l -> nth_error l k = Some z -> P z.
Proof. intros H E. rewrite List.Forall_forall in H. apply H. exact (nth_error_In _ _ E). Qed.
Lemma forall_nth {A} (P : A -> Prop) l : (forall k z, nth_error l k = Some z -> P z) -> List.Forall P l.
Proof. intros H. apply List.Forall_forall. intros z I. apply In_nth_error in I. destruct I as (k & E). exact (H k z E). Qed.
Section Err.
  Context (cos64 sin64 : f64 -> f64).
  Notation tw := (twiddle64 cos64 sin64).
  Notation calc := (calculation64 cos64 sin64).
  (** the computed exponentials are within [d] of the exact ones, for lengths up to [mx] *)
  Definition accurate (mx : nat) (d : R) : Prop := forall n k, (1 <= n <= mx)%nat -> (2 * k <= n)%nat ->
    cfin (cis64 cos64 sin64 (angle64 n k)) /\ Cmod (Cminus (cval (cis64 cos64 sin64 (angle64 n k))) (cis (angle n k))) <= d.
  Lemma calc_step fuel x M : (0 < M)%nat -> length x = (2 * M)%nat -> forall y, calc (S fuel) x = Ret y -> exists e o, calc fuel (fst (split_array x)) = Ret e /\ calc fuel (snd (split_array x)) = Ret o /\
    (length e = M -> length o = M -> length y = (2 * M)%nat /\ forall k a b, (k < M)%nat -> nth_error e k = Some a -> nth_error o k = Some b ->
       nth_error y k = Some (cadd64 a (tw (2 * M) k b)) /\ nth_error y (M + k) = Some (csub64 a (tw (2 * M) k b))).
  Proof.
    intros M0 L y H. unfold calculation64 in *. rewrite (calculation_step _ _ _ fuel x M M0 L) in H. destruct (calculation cadd64 csub64 tw fuel (fst (split_array x))) as [e| |]; try discriminate. cbn [bind] in H.
    destruct (calculation cadd64 csub64 tw fuel (snd (split_array x))) as [o| |]; try discriminate. cbn [bind] in H. match type of H with Ret ?a = _ => assert (EY : y = a) by congruence end. subst y. clear H. exists e, o. split; [reflexivity|]. split; [reflexivity|]. intros Le Lo.
    destruct (butterflies_length cadd64 csub64 tw (2 * M) e 0 o ltac:(lia)) as [B1 B2]. split; [rewrite app_length, B1, B2; lia|]. intros k a b K A B.
    destruct (butterflies_nth cadd64 csub64 tw (2 * M) e 0 o k a b A B) as [N1 N2]. rewrite Nat.add_0_l in N1, N2. split.
    - rewrite nth_error_app1 by lia. exact N1.
    - rewrite nth_error_app2 by lia. rewrite B1, Le. replace (M + k - M)%nat with k by lia. exact N2.
  Qed.
  Lemma calc_err d m : 0 <= d <= / 100 -> accurate (2 ^ m) d -> forall fuel x y, (m < fuel)%nat -> length x = (2 ^ m)%nat -> calc fuel x = Ret y -> length y = (2 ^ m)%nat /\ (List.Forall cfin y ->
    List.Forall cfin x /\ forall k z, nth_error y k = Some z -> Cmod (Cminus (cval z) (dft (map cval x) k)) <= (gfac d ^ m - 1) * norm1 (map cval x) + wfac m).
  Proof.
    intros D. induction m as [|m IH]; intros AC fuel x y HF L H.
    - destruct fuel as [|fuel]; [lia|]. unfold calculation64 in H. cbn [calculation] in H. cbn [Nat.pow] in L. rewrite L in H. cbn [Nat.eqb] in H. injection H as <-. split; [exact L|]. intros FX. split; [exact FX|]. intros k z Z.
      destruct x as [|a [|? ?]]; try discriminate. destruct k as [|k]; [|destruct k; discriminate]. cbn in Z. injection Z as ->. unfold dft. cbn [map length dsum].
      replace (-2 * PI * INR 0 / INR 1 * INR 0) with 0 by (cbn [INR]; field). rewrite cis_0. replace (Cminus (cval z) (Cplus (Cmult (cval z) (RtoC 1)) (RtoC 0))) with (RtoC 0) by ring. rewrite Cmod_0. unfold wfac. cbn [pow]. lra.
    - destruct fuel as [|fuel]; [lia|]. assert (M0 : (0 < 2 ^ m)%nat) by (pose proof (Nat.pow_nonzero 2 m ltac:(lia)); lia). change (2 ^ S m)%nat with (2 * 2 ^ m)%nat in *. set (M := (2 ^ m)%nat) in *.
      destruct (split_length x M L) as [Le Lo]. destruct (calc_step fuel x M M0 L y H) as (e & o & HE & HO & ST).
      assert (AC' : accurate M d) by (intros n k N K; apply AC; lia).
      destruct (IH AC' fuel _ e ltac:(lia) Le HE) as [LE RE]. destruct (IH AC' fuel _ o ltac:(lia) Lo HO) as [LO RO]. destruct (ST LE LO) as [LY NY]. split; [exact LY|]. intros FY.
      assert (PARTS : forall k a b, (k < M)%nat -> nth_error e k = Some a -> nth_error o k = Some b -> cfin a /\ cfin b /\ cfin (tw (2 * M) k b)).
      { intros k a b K A B. destruct (NY k a b K A B) as [Y1 _]. pose proof (nth_forall _ _ _ _ FY Y1) as F. destruct (cadd64_err _ _ F) as (FA & FT & _). destruct (cmul64_err _ _ FT) as (_ & FB & _). split; [exact FA|]. split; [exact FB|exact FT]. }
      assert (FE : List.Forall cfin e). { apply forall_nth. intros k a A. assert (K : (k < M)%nat) by (rewrite <- LE; apply nth_error_Some; congruence). destruct (nth_lt o k ltac:(lia)) as (b & B). apply (PARTS k a b K A B). }
      assert (FO : List.Forall cfin o). { apply forall_nth. intros k b B. assert (K : (k < M)%nat) by (rewrite <- LO; apply nth_error_Some; congruence). destruct (nth_lt e k ltac:(lia)) as (a & A). apply (PARTS k a b K A B). }
      destruct (RE FE) as [FXE EE]. destruct (RO FO) as [FXO EO]. split.
      { clear - FXE FXO. induction x as [|a|a b x IHx] using pair_ind; [constructor|exact FXE|]. cbn [split_array] in *. destruct (split_array x) as [p q]. cbn [fst snd] in *. inversion FXE; subst. inversion FXO; subst. constructor; [assumption|]. constructor; [assumption|]. apply IHx; assumption. }
      assert (LX : length (map cval x) = (2 * M)%nat) by (rewrite map_length; exact L). pose proof (map_split cval x) as MS.
      assert (NS := norm1_split (map cval x)). rewrite MS in NS. cbn [fst snd] in NS. set (Ne := norm1 (map cval (fst (split_array x)))) in *. set (No := norm1 (map cval (snd (split_array x)))) in *.
      assert (Ne0 : 0 <= Ne) by apply norm1_pos. assert (No0 : 0 <= No) by apply norm1_pos. assert (G1 : 1 <= gfac d ^ m) by (apply pow_R1_Rle, gfac_ge, D). pose proof (wfac_pos m) as W0.
      assert (MAIN : forall k, (k < M)%nat -> (forall z, nth_error y k = Some z -> Cmod (Cminus (cval z) (dft (map cval x) k)) <= (gfac d ^ S m - 1) * norm1 (map cval x) + wfac (S m)) /\
        (forall z, nth_error y (M + k) = Some z -> Cmod (Cminus (cval z) (dft (map cval x) (M + k))) <= (gfac d ^ S m - 1) * norm1 (map cval x) + wfac (S m))).
      { intros k K. destruct (nth_lt e k ltac:(lia)) as (a & A). destruct (nth_lt o k ltac:(lia)) as (b & B). destruct (NY k a b K A B) as [Y1 Y2]. destruct (PARTS k a b K A B) as (_ & _ & FT).
        destruct (dft_split (map cval x) M k M0 LX K) as [D1 D2]. rewrite MS in D1, D2. cbn [fst snd] in D1, D2. pose proof (EE k a A) as EA. pose proof (EO k b B) as EB. fold Ne in EA. fold No in EB.
        destruct (AC (2 * M)%nat k ltac:(lia) ltac:(lia)) as [_ AW].
        pose proof (tw_err d _ _ b (dft (map cval (snd (split_array x))) k) (gfac d ^ m) No (wfac m) D G1 No0 W0 (Cmod_cis _) AW (dft_bound _ _) EB FT) as ET.
        set (E := dft (map cval (fst (split_array x))) k) in *. set (T := Cmult (cis (angle (2 * M) k)) (dft (map cval (snd (split_array x))) k)) in *.
        assert (BT : Cmod T <= No) by (unfold T; rewrite Cmod_mult, Cmod_cis, Rmult_1_l; apply dft_bound). assert (BE : Cmod E <= Ne) by apply dft_bound.
        rewrite NS, wfac_S. cbn [pow]. split; intros z Z.
        - rewrite Y1 in Z. injection Z as <-. rewrite D1. pose proof (nth_forall _ _ _ _ FY Y1) as F. destruct (cadd64_err _ _ F) as (_ & _ & ER).
          apply (comb_err d (gfac d ^ m) Ne No (wfac m) _ (Cplus (cval a) (cval (tw (2 * M) k b))) _ (cval a) (cval (tw (2 * M) k b)) E T D G1 Ne0 No0 W0 EA ET); [|  |exact ER].
          + eapply Rle_trans; [apply Cmod_triangle|]. lra.
          + replace (Cminus (Cplus (cval a) (cval (tw (2 * M) k b))) (Cplus E T)) with (Cplus (Cminus (cval a) E) (Cminus (cval (tw (2 * M) k b)) T)) by ring. apply Cmod_triangle.
        - rewrite Y2 in Z. injection Z as <-. rewrite D2. pose proof (nth_forall _ _ _ _ FY Y2) as F. destruct (csub64_err _ _ F) as (_ & _ & ER).
          apply (comb_err d (gfac d ^ m) Ne No (wfac m) _ (Cminus (cval a) (cval (tw (2 * M) k b))) _ (cval a) (cval (tw (2 * M) k b)) E T D G1 Ne0 No0 W0 EA ET); [|  |exact ER].
          + eapply Rle_trans; [apply Cmod_triangle|]. rewrite Cmod_opp. lra.
          + replace (Cminus (Cminus (cval a) (cval (tw (2 * M) k b))) (Cminus E T)) with (Cplus (Cminus (cval a) E) (Copp (Cminus (cval (tw (2 * M) k b)) T))) by ring. eapply Rle_trans; [apply Cmod_triangle|]. rewrite Cmod_opp. lra. }
      intros k z Z. assert (K : (k < 2 * M)%nat) by (rewrite <- LY; apply nth_error_Some; congruence). destruct (Nat.lt_ge_cases k M) as [KL | KG]; [apply MAIN; assumption|].
      replace k with (M + (k - M))%nat in * by lia. apply (proj2 (MAIN (k - M)%nat ltac:(lia))). exact Z.
  Qed.
End Err.

(** Every coefficient computed in binary64 is close to that of the exact discrete Fourier
    transform: the relative factor grows like the logarithm of the length. *)
Theorem fft64_error : forall cos64 sin64 valid64 d m fuel x y, 0 <= d <= / 100 -> accurate cos64 sin64 (2 ^ m) d -> (m < fuel)%nat -> length x = (2 ^ m)%nat ->
  fft_complex64 cos64 sin64 valid64 fuel x = Ret y -> List.Forall cfin y ->
  length y = length x /\ List.Forall cfin x /\
  forall k z, nth_error y k = Some z -> Cmod (Cminus (cval z) (dft (map cval x) k)) <= (((1 + u) * (1 + (2 * ((1 + u) ^ 2 - 1) * (1 + d) + d))) ^ m - 1) * norm1 (map cval x) + 3 * (3 ^ m - 1) * eta.
Proof.
  intros cos64 sin64 valid64 d m fuel x y D AC HF L H FY. unfold fft_complex64 in H. destruct (valid64 (length x)); [|discriminate]. cbn [assertb] in H.
  destruct (calc_err cos64 sin64 d m D AC fuel x y HF L H) as [LY R]. destruct (R FY) as [FX E]. split; [rewrite LY, L; reflexivity|]. split; [exact FX|exact E].
Qed.
Print Assumptions fft64_error.

(** ** The twiddle factors *)
Lemma entry_lit m e : lit m e = F64QuadModel.entry (m, e). Proof. reflexivity. Qed.
Lemma pi64_R : fin PI64 /\ Rabs (val PI64 - PI) <= 3 * u.
Proof.
  unfold PI64. rewrite entry_lit. destruct (entry_R 884279719003555 (-48) ltac:(lia) ltac:(lia)) as [F V]. split; [exact F|]. rewrite V. change (bpow radix2 (-48)) with (/ IZR (2 ^ 48)). unfold u.
  pose proof IvConst.pi_digits as [L U]. change (2 ^ 48)%Z with 281474976710656%Z. change (2 ^ 53)%Z with 9007199254740992%Z. apply Rabs_le. cbn [pow] in L, U. split; lra.
Qed.
Lemma m_two_R : fin m_two /\ val m_two = -2. Proof. apply int_lit. cbn. discriminate. Qed.
Lemma four_cap x : Rabs x <= 100000000000000000000 -> Rabs (rnd x) < fmaxR.
Proof. intros H. apply (rnd_cap 100 x); [lia|]. eapply Rle_trans; [exact H|]. change (bpow radix2 100) with (IZR (2 ^ 100)). apply IZR_le. vm_compute. discriminate. Qed.
Lemma angle64_err n k : small n -> (1 <= n)%nat -> (2 * k <= n)%nat -> fin (angle64 n k) /\ Rabs (val (angle64 n k) - angle n k) <= 10 * u /\ Rabs (val (angle64 n k)) <= 4.
Proof.
  intros Sn N1 K. assert (Sk : small k) by (unfold small in *; lia). destruct (usize_R n Sn) as [Fn Vn]. destruct (usize_R k Sk) as [Fk Vk]. destruct pi64_R as [FP EP]. destruct m_two_R as [F2 V2].
  pose proof u_pos as U. pose proof u_tiny as UT. pose proof eta_pos as E0. pose proof eta_tiny as ET. pose proof PI_4 as P4. pose proof PI_RGT_0 as P0.
  assert (EU : eta <= u / 1000). { unfold eta, u. replace (IZR (2 ^ 53)) with (bpow radix2 53) by reflexivity. rewrite <- bpow_opp. assert (H : bpow radix2 (-1074) <= bpow radix2 (-53 + -10)) by (apply bpow_le; lia). rewrite bpow_plus in H. change (bpow radix2 (-10)) with (/ IZR 1024) in H. pose proof (bpow_gt_0 radix2 (-53)). change (- (53))%Z with (-53)%Z. nra. }
  set (p := val PI64) in *. assert (PB : 3 <= p <= 5). { apply Rabs_le_inv in EP. pose proof IvConst.pi_digits as [L1 L2]. cbn [pow] in L1, L2. lra. }
  assert (NN : 1 <= INR n) by (apply (le_INR 1); exact N1). assert (KN : 2 * INR k <= INR n). { replace (2 * INR k) with (INR (2 * k)) by (rewrite mult_INR; reflexivity). apply le_INR, K. } assert (K0 : 0 <= INR k) by apply pos_INR.
  assert (NM : INR n <= 10000000000000000). { rewrite INR_IZR_INZ. apply Rle_trans with (IZR (2 ^ 53)); [apply IZR_le; exact Sn|]. apply IZR_le. vm_compute. discriminate. }
  assert (F1 : fmt (-2 * p)) by (replace (-2 * p) with (- (2 * p)) by ring; apply fmt_opp, fmt_2, val_fmt).
  destruct (fmul_R m_two PI64 F2 FP) as [FM VM]. { rewrite V2. fold p. apply four_cap. rewrite Rabs_left1 by lra. lra. }
  rewrite V2 in VM. fold p in VM. rewrite (rnd_id _ F1) in VM.
  destruct (fmul_R (fmul m_two PI64) (of_usize k) FM Fk) as [FQ VQ]. { rewrite VM, Vk. apply four_cap. rewrite Rabs_left1 by nra. nra. }
  rewrite VM, Vk in VQ. destruct (rnd_err (-2 * p * INR k)) as (e1 & h1 & He1 & Hh1 & R1).
  set (q := val (fmul (fmul m_two PI64) (of_usize k))) in *. rewrite R1 in VQ.
  assert (QN : Rabs (q / INR n) <= 6).
  { unfold Rdiv. rewrite Rabs_mult, (Rabs_pos_eq (/ INR n)) by (left; apply Rinv_0_lt_compat; lra). apply Rmult_le_reg_r with (INR n); [lra|]. rewrite Rmult_assoc, Rinv_l, Rmult_1_r by lra. rewrite VQ. eapply Rle_trans; [apply Rabs_triang|]. rewrite Rabs_mult, (Rabs_left1 (-2 * p * INR k)) by nra.
    assert (Rabs (1 + e1) <= 1 + u) by (eapply Rle_trans; [apply Rabs_triang|rewrite Rabs_R1; lra]). assert (- (-2 * p * INR k) <= 5 * INR n) by nra. assert (0 <= - (-2 * p * INR k)) by nra. pose proof (Rabs_pos (1 + e1)). assert (- (-2 * p * INR k) * Rabs (1 + e1) <= 5 * INR n * (1 + u)) by (apply Rmult_le_compat; assumption). nra. }
  destruct (fdiv_R (fmul (fmul m_two PI64) (of_usize k)) (of_usize n) FQ) as [FA VA]. { rewrite Vn. lra. } { rewrite Vn. fold q. apply four_cap. lra. }
  split; [exact FA|]. unfold angle64. rewrite VA, Vn. fold q. pose proof (rnd_abs_err (q / INR n)) as RE.
  set (r := INR k / INR n). assert (R0 : 0 <= r <= / 2). { unfold r. split; [apply Rmult_le_pos; [exact K0|left; apply Rinv_0_lt_compat; lra]|]. apply Rmult_le_reg_r with (INR n); [lra|]. unfold Rdiv. rewrite Rmult_assoc, Rinv_l by lra. lra. }
  assert (QE : q / INR n = -2 * p * r * (1 + e1) + h1 / INR n) by (unfold r; rewrite VQ; field; lra).
  assert (H1 : Rabs (h1 / INR n) <= eta). { unfold Rdiv. rewrite Rabs_mult, (Rabs_pos_eq (/ INR n)) by (left; apply Rinv_0_lt_compat; lra). assert (/ INR n <= 1) by (rewrite <- Rinv_1; apply Rinv_le_contravar; lra). pose proof (Rabs_pos h1). assert (0 < / INR n) by (apply Rinv_0_lt_compat; lra). nra. }
  assert (AE : angle n k = -2 * PI * r) by (unfold angle, r; field; lra).
  assert (QA : Rabs (q / INR n - angle n k) <= 3 * u + u * 32 / 10 + eta).
  { rewrite QE, AE. replace (-2 * p * r * (1 + e1) + h1 / INR n - -2 * PI * r) with (-2 * r * (p - PI) + -2 * p * r * e1 + h1 / INR n) by ring. eapply Rle_trans; [apply Rabs_triang|]. apply Rplus_le_compat; [|exact H1]. eapply Rle_trans; [apply Rabs_triang|]. apply Rplus_le_compat.
    - rewrite Rabs_mult, (Rabs_left1 (-2 * r)) by lra. pose proof (Rabs_pos (p - PI)). nra.
    - rewrite Rabs_mult, (Rabs_left1 (-2 * p * r)) by nra. assert (p <= 32 / 10). { apply Rabs_le_inv in EP. pose proof IvConst.pi_digits as [L1 L2]. cbn [pow] in L1, L2. lra. } assert (- (-2 * p * r) <= 32 / 10) by nra. assert (0 <= - (-2 * p * r)) by nra. pose proof (Rabs_pos e1). assert (- (-2 * p * r) * Rabs e1 <= 32 / 10 * u) by (apply Rmult_le_compat; assumption). lra. }
  assert (AB : Rabs (angle n k) <= 315 / 100). { rewrite AE, Rabs_left1 by nra. pose proof IvConst.pi_digits as [L1 L2]. cbn [pow] in L1, L2. assert (PI <= 315 / 100) by lra. nra. }
  pose proof (near_abs _ _ _ QA) as QB. set (t := q / INR n) in *.
  assert (RE' : Rabs (rnd t - t) <= 33 / 10 * u + eta) by (assert (u * Rabs t <= u * (33 / 10)) by (apply Rmult_le_compat_l; lra); lra).
  assert (TOT : Rabs (rnd t - angle n k) <= 10 * u) by (eapply Rle_trans; [apply (tri _ t)|]; lra).
  split; [exact TOT|]. pose proof (near_abs _ _ _ TOT). lra.
Qed.
(** cosine and sine are 1-Lipschitz *)
Lemma cos_lip a b : Rabs (cos a - cos b) <= Rabs (a - b).
Proof.
  destruct (MVT_abs cos (fun x => - sin x) b a) as (c & E & _); [intros c _; apply derivable_pt_lim_cos|]. rewrite E, Rabs_Ropp. pose proof (Rabs_pos (a - b)). assert (Rabs (sin c) <= 1) by (apply Rabs_le; pose proof (SIN_bound c); lra). nra.
Qed.
Lemma sin_lip a b : Rabs (sin a - sin b) <= Rabs (a - b).
Proof.
  destruct (MVT_abs sin cos b a) as (c & E & _); [intros c _; apply derivable_pt_lim_sin|]. rewrite E. pose proof (Rabs_pos (a - b)). assert (Rabs (cos c) <= 1) by (apply Rabs_le; pose proof (COS_bound c); lra). nra.
Qed.
Lemma fmul_one x : fin x -> fin (fmul one x) /\ val (fmul one x) = val x.
Proof.
  intros F. destruct one_R as [F1 V1]. assert (E : rnd (val one * val x) = val x) by (rewrite V1, Rmult_1_l; apply rnd_id, val_fmt). destruct (fmul_R one x F1 F) as [A B]; [rewrite E; apply val_lt|]. split; [exact A|rewrite B; exact E].
Qed.
(** library functions accurate to [e] on [-4, 4] give exponentials accurate to 2 e + 20 u *)
Theorem twiddles64_accurate : forall cos64 sin64 e mx, small mx ->
  (forall x, fin x -> Rabs (val x) <= 4 -> fin (cos64 x) /\ Rabs (val (cos64 x) - cos (val x)) <= e) ->
  (forall x, fin x -> Rabs (val x) <= 4 -> fin (sin64 x) /\ Rabs (val (sin64 x) - sin (val x)) <= e) ->
  accurate cos64 sin64 mx (2 * (e + 10 * u)).
Proof.
  intros cos64 sin64 e mx SM HC HS n k N K. assert (Sn : small n) by (unfold small in *; lia). destruct (angle64_err n k Sn ltac:(lia) K) as (FA & EA & BA).
  destruct (HC _ FA BA) as [FC EC]. destruct (HS _ FA BA) as [FS ES]. unfold cis64. destruct (fmul_one _ FC) as [F1 V1]. destruct (fmul_one _ FS) as [F2 V2]. split; [split; assumption|].
  unfold cval, Cminus, Cplus, Copp, cis. cbn [fst snd]. rewrite V1, V2. eapply Rle_trans; [apply cmod_sum|].
  pose proof (cos_lip (val (angle64 n k)) (angle n k)). pose proof (sin_lip (val (angle64 n k)) (angle n k)).
  pose proof (tri (val (cos64 (angle64 n k))) (cos (val (angle64 n k))) (cos (angle n k))). pose proof (tri (val (sin64 (angle64 n k))) (sin (val (angle64 n k))) (sin (angle n k))). unfold Rminus in *. lra.
Qed.
Print Assumptions twiddles64_accurate.
(** functions that round the exact cosine and sine exist and are accurate to u *)
Definition fix52 (r : R) : f64 := lit (ZnearestE (r * bpow radix2 52)) (-52).
Lemma fix52_R r : Rabs r <= 1 -> fin (fix52 r) /\ Rabs (val (fix52 r) - r) <= u.
Proof.
  intros H. unfold fix52. set (z := ZnearestE (r * bpow radix2 52)). pose proof (Znearest_half (fun t => negb (Z.even t)) (r * bpow radix2 52)) as NH. fold z in NH. change (bpow radix2 52) with 4503599627370496 in *.
  assert (ZB : (Z.abs z <= 2 ^ 53)%Z). { apply le_IZR. rewrite abs_IZR. apply Rle_trans with (Rabs (r * 4503599627370496) + / 2); [replace (IZR z) with (r * 4503599627370496 - (r * 4503599627370496 - IZR z)) by ring; eapply Rle_trans; [apply Rabs_triang|]; rewrite Rabs_Ropp; lra|]. rewrite Rabs_mult, (Rabs_pos_eq 4503599627370496) by lra. change (IZR (2 ^ 53)) with 9007199254740992. lra. }
  rewrite entry_lit. destruct (entry_R z (-52) ltac:(lia) ZB) as [F V]. split; [exact F|]. rewrite V. change (bpow radix2 (-52)) with (/ 4503599627370496). unfold u. change (IZR (2 ^ 53)) with 9007199254740992.
  replace (IZR z * / 4503599627370496 - r) with (- (r * 4503599627370496 - IZR z) * / 4503599627370496) by field. rewrite Rabs_mult, Rabs_Ropp, (Rabs_pos_eq (/ 4503599627370496)) by lra. lra.
Qed.
Example twiddles64_meets :
  (forall x, fin x -> Rabs (val x) <= 4 -> fin (fix52 (cos (val x))) /\ Rabs (val (fix52 (cos (val x))) - cos (val x)) <= u) /\
  (forall x, fin x -> Rabs (val x) <= 4 -> fin (fix52 (sin (val x))) /\ Rabs (val (fix52 (sin (val x))) - sin (val x)) <= u).
Proof. split; intros x _ _; apply fix52_R; apply Rabs_le; [pose proof (COS_bound (val x)) | pose proof (SIN_bound (val x))]; lra. Qed.

(** ** No overflow *)
Lemma cap1023 x : Rabs x <= bpow radix2 1023 -> Rabs (rnd x) <= bpow radix2 1023 /\ Rabs (rnd x) < fmaxR.
Proof. apply rnd_cap. lia. Qed.
Lemma part_cmod (z : C) : Rabs (fst z) <= Cmod z /\ Rabs (snd z) <= Cmod z.
Proof. destruct z as [a b]. cbn [fst snd]. pose proof (Rmax_Cmod (a, b)) as H. cbn [fst snd] in H. pose proof (Rmax_l (Rabs a) (Rabs b)). pose proof (Rmax_r (Rabs a) (Rabs b)). lra. Qed.
Lemma cadd64_ok x y : cfin x -> cfin y -> Cmod (cval x) + Cmod (cval y) <= bpow radix2 1023 -> cfin (cadd64 x y) /\ cfin (csub64 x y).
Proof.
  intros [X1 X2] [Y1 Y2] B. destruct (part_cmod (cval x)) as [P1 P2]. destruct (part_cmod (cval y)) as [Q1 Q2]. cbn [cval fst snd] in *. unfold cadd64, csub64, cfin. cbn [fst snd].
  assert (T : forall a b, Rabs a <= Cmod (cval x) -> Rabs b <= Cmod (cval y) -> Rabs (rnd (a + b)) < fmaxR /\ Rabs (rnd (a - b)) < fmaxR).
  { intros a b A C. split; apply cap1023; (eapply Rle_trans; [apply Rabs_triang|]); rewrite ?Rabs_Ropp; unfold cval in *; lra. }
  split; split; (apply fadd_R || apply fsub_R); try assumption; apply T; assumption.
Qed.
Lemma cmul64_ok w o B : cfin w -> cfin o -> Cmod (cval w) <= 1 + / 100 -> Cmod (cval o) <= B -> 4 * B + 1 <= bpow radix2 1023 -> cfin (cmul64 w o).
Proof.
  intros [W1 W2] [O1 O2] HW HO HB. destruct (part_cmod (cval w)) as [P1 P2]. destruct (part_cmod (cval o)) as [Q1 Q2]. cbn [cval fst snd] in P1, P2, Q1, Q2.
  pose proof u_pos. pose proof u_tiny. pose proof eta_pos. pose proof eta_tiny. pose proof (Cmod_ge_0 (cval o)) as C0. change (val (fst w), val (snd w)) with (cval w) in *. change (val (fst o), val (snd o)) with (cval o) in *.
  assert (T : forall a b, fin a -> fin b -> Rabs (val a) <= Cmod (cval w) -> Rabs (val b) <= Cmod (cval o) -> fin (fmul a b) /\ Rabs (val (fmul a b)) <= 11 / 10 * B + / 1000).
  { intros a b Fa Fb Ha Hb. assert (P : Rabs (val a * val b) <= (1 + / 100) * B) by (rewrite Rabs_mult; apply Rmult_le_compat; try apply Rabs_pos; lra). destruct (fmul_R a b Fa Fb) as [F V]; [apply cap1023; lra|]. split; [exact F|]. rewrite V.
    pose proof (near_abs _ _ _ (rnd_abs_err (val a * val b))) as E. assert (u * Rabs (val a * val b) <= / 1000000 * ((1 + / 100) * B)) by (apply Rmult_le_compat; try lra; apply Rabs_pos). lra. }
  destruct (T (fst w) (fst o) W1 O1 P1 Q1) as [F1 B1]. destruct (T (snd w) (snd o) W2 O2 P2 Q2) as [F2 B2]. destruct (T (fst w) (snd o) W1 O2 P1 Q2) as [F3 B3]. destruct (T (snd w) (fst o) W2 O1 P2 Q1) as [F4 B4].
  unfold cmul64. split; cbn [fst snd].
  - apply fsub_R; [exact F1|exact F2|]. apply cap1023. eapply Rle_trans; [apply Rabs_triang|]. rewrite Rabs_Ropp. lra.
  - apply fadd_R; [exact F3|exact F4|]. apply cap1023. eapply Rle_trans; [apply Rabs_triang|]. lra.
Qed.
Lemma calc_total cos64 sin64 m : forall fuel x, (m < fuel)%nat -> length x = (2 ^ m)%nat -> exists y, calculation64 cos64 sin64 fuel x = Ret y.
Proof.
  induction m as [|m IH]; intros fuel x HF L; (destruct fuel as [|fuel]; [lia|]).
  - unfold calculation64. cbn [calculation]. cbn [Nat.pow] in L. rewrite L. eexists. reflexivity.
  - assert (M0 : (0 < 2 ^ m)%nat) by (pose proof (Nat.pow_nonzero 2 m ltac:(lia)); lia). change (2 ^ S m)%nat with (2 * 2 ^ m)%nat in *. destruct (split_length x (2 ^ m) L) as [Le Lo].
    destruct (IH fuel (fst (split_array x)) ltac:(lia) Le) as (e & E). destruct (IH fuel (snd (split_array x)) ltac:(lia) Lo) as (o & O). unfold calculation64 in *. rewrite (calculation_step _ _ _ fuel x (2 ^ m) M0 L), E, O. cbn [bind]. eexists. reflexivity.
Qed.
Lemma calc_fin cos64 sin64 d m : 0 <= d <= / 100 -> accurate cos64 sin64 (2 ^ m) d -> forall fuel x y, (m < fuel)%nat -> length x = (2 ^ m)%nat -> calculation64 cos64 sin64 fuel x = Ret y ->
  List.Forall cfin x -> 4 * (gfac d ^ m * norm1 (map cval x) + wfac m) + 1 <= bpow radix2 1023 -> List.Forall cfin y.
Proof.
  intros D. induction m as [|m IH]; intros AC fuel x y HF L H FX CAP.
  - destruct fuel as [|fuel]; [lia|]. unfold calculation64 in H. cbn [calculation] in H. cbn [Nat.pow] in L. rewrite L in H. cbn [Nat.eqb] in H. injection H as <-. exact FX.
  - destruct fuel as [|fuel]; [lia|]. assert (M0 : (0 < 2 ^ m)%nat) by (pose proof (Nat.pow_nonzero 2 m ltac:(lia)); lia). change (2 ^ S m)%nat with (2 * 2 ^ m)%nat in *.
    destruct (split_length x (2 ^ m) L) as [Le Lo]. destruct (calc_step cos64 sin64 fuel x (2 ^ m) M0 L y H) as (e & o & HE & HO & ST).
    assert (AC' : accurate cos64 sin64 (2 ^ m) d) by (intros n k N K; apply AC; lia).
    assert (FS : List.Forall cfin (fst (split_array x)) /\ List.Forall cfin (snd (split_array x))).
    { clear - FX. induction x as [|a|a b x IHx] using pair_ind; [split; constructor|split; [exact FX|constructor]|]. inversion FX as [|? ? A R1]; subst. inversion R1 as [|? ? B R2]; subst. destruct (IHx R2) as [I1 I2]. cbn [split_array]. destruct (split_array x) as [p q]. cbn [fst snd] in *. split; constructor; assumption. }
    assert (NS := norm1_split (map cval x)). rewrite map_split in NS. cbn [fst snd] in NS. set (Ne := norm1 (map cval (fst (split_array x)))) in *. set (No := norm1 (map cval (snd (split_array x)))) in *.
    assert (Ne0 : 0 <= Ne) by apply norm1_pos. assert (No0 : 0 <= No) by apply norm1_pos. assert (G1 : 1 <= gfac d ^ m) by (apply pow_R1_Rle, gfac_ge, D). pose proof (gfac_ge d D) as GG. pose proof (wfac_pos m) as W0. pose proof eta_pos as E0. pose proof eta_tiny as ET. rewrite NS, wfac_S in CAP. cbn [pow] in CAP.
    assert (BN : gfac d ^ m * (Ne + No) <= gfac d * gfac d ^ m * (Ne + No)). { rewrite Rmult_assoc. rewrite <- (Rmult_1_l (gfac d ^ m * (Ne + No))) at 1. apply Rmult_le_compat_r; [|exact GG]. apply Rmult_le_pos; lra. }
    assert (BE : gfac d ^ m * Ne + gfac d ^ m * No <= gfac d * gfac d ^ m * (Ne + No)) by lra. assert (PE : 0 <= gfac d ^ m * Ne) by (apply Rmult_le_pos; lra). assert (PO : 0 <= gfac d ^ m * No) by (apply Rmult_le_pos; lra).
    assert (FE : List.Forall cfin e) by (apply (IH AC' fuel _ e ltac:(lia) Le HE (proj1 FS)); fold Ne; lra). assert (FO : List.Forall cfin o) by (apply (IH AC' fuel _ o ltac:(lia) Lo HO (proj2 FS)); fold No; lra).
    destruct (calc_err cos64 sin64 d m D AC' fuel _ e ltac:(lia) Le HE) as [LE RE]. destruct (calc_err cos64 sin64 d m D AC' fuel _ o ltac:(lia) Lo HO) as [LO RO]. destruct (RE FE) as [_ EE]. destruct (RO FO) as [_ EO]. destruct (ST LE LO) as [LY NY].
    assert (K1 : forall k, (k < 2 ^ m)%nat -> (forall z, nth_error y k = Some z -> cfin z) /\ (forall z, nth_error y (2 ^ m + k) = Some z -> cfin z)).
    { intros k K. destruct (nth_lt e k ltac:(lia)) as (a & A). destruct (nth_lt o k ltac:(lia)) as (b & B). destruct (NY k a b K A B) as [Y1 Y2].
      pose proof (cmod_near _ _ _ (EE k a A)) as MA. pose proof (cmod_near _ _ _ (EO k b B)) as MB. pose proof (dft_bound (map cval (fst (split_array x))) k) as DA. pose proof (dft_bound (map cval (snd (split_array x))) k) as DB. fold Ne in MA, DA. fold No in MB, DB.
      destruct (AC (2 * 2 ^ m)%nat k ltac:(lia) ltac:(lia)) as [FW AW]. pose proof (cmod_near _ _ _ AW) as MW. rewrite Cmod_cis in MW.
      assert (FT : cfin (twiddle64 cos64 sin64 (2 * 2 ^ m) k b)). { apply (cmul64_ok _ _ (gfac d ^ m * No + wfac m) FW (nth_forall _ _ _ _ FO B)); lra. }
      pose proof (cmul64_err _ _ FT) as (_ & _ & ER). pose proof (cmod_near _ _ _ ER) as MT. rewrite Cmod_mult in MT.
      set (w := cis64 cos64 sin64 (angle64 (2 * 2 ^ m) k)) in *. change (cmul64 w b) with (twiddle64 cos64 sin64 (2 * 2 ^ m) k b) in MT.
      assert (PW : Cmod (cval w) * Cmod (cval b) <= (1 + / 100) * (gfac d ^ m * No + wfac m)) by (apply Rmult_le_compat; try apply Cmod_ge_0; lra).
      assert (R1 : 2 * ((1 + u) ^ 2 - 1) <= / 100) by (pose proof u_pos; pose proof u_tiny; nra). assert (R0 : 0 <= 2 * ((1 + u) ^ 2 - 1)) by (pose proof u_pos; nra).
      assert (PW0 : 0 <= Cmod (cval w) * Cmod (cval b)) by (apply Rmult_le_pos; apply Cmod_ge_0).
      assert (PR : 2 * ((1 + u) ^ 2 - 1) * (Cmod (cval w) * Cmod (cval b)) <= / 100 * ((1 + / 100) * (gfac d ^ m * No + wfac m))) by (apply Rmult_le_compat; assumption).
      assert (SUM : Cmod (cval a) + Cmod (cval (twiddle64 cos64 sin64 (2 * 2 ^ m) k b)) <= bpow radix2 1023) by lra.
      destruct (cadd64_ok a _ (nth_forall _ _ _ _ FE A) FT SUM) as [S1 S2]. split; intros z Z; [rewrite Y1 in Z|rewrite Y2 in Z]; injection Z as <-; assumption. }
    apply forall_nth. intros k z Z. assert (K : (k < 2 * 2 ^ m)%nat) by (rewrite <- LY; apply nth_error_Some; congruence). destruct (Nat.lt_ge_cases k (2 ^ m)) as [KL | KG]; [exact (proj1 (K1 k KL) z Z)|].
    replace k with (2 ^ m + (k - 2 ^ m))%nat in Z by lia. exact (proj2 (K1 (k - 2 ^ m)%nat ltac:(lia)) z Z).
Qed.
(** Finite data below the overflow threshold give finite coefficients. *)
Theorem fft64_finite : forall cos64 sin64 valid64 d m fuel x, 0 <= d <= / 100 -> accurate cos64 sin64 (2 ^ m) d -> (m < fuel)%nat -> length x = (2 ^ m)%nat -> valid64 (length x) = true ->
  List.Forall cfin x -> 4 * (((1 + u) * (1 + (2 * ((1 + u) ^ 2 - 1) * (1 + d) + d))) ^ m * norm1 (map cval x) + 3 * (3 ^ m - 1) * eta) + 1 <= bpow radix2 1023 ->
  exists y, fft_complex64 cos64 sin64 valid64 fuel x = Ret y /\ length y = length x /\ List.Forall cfin y.
Proof.
  intros cos64 sin64 valid64 d m fuel x D AC HF L V FX CAP. unfold fft_complex64. rewrite V. cbn [assertb]. destruct (calc_total cos64 sin64 m fuel x HF L) as (y & Y). exists y. split; [exact Y|].
  split; [|exact (calc_fin cos64 sin64 d m D AC fuel x y HF L Y FX CAP)]. rewrite L. apply (calc_err cos64 sin64 d m D AC fuel x y HF L Y).
Qed.
Print Assumptions fft64_finite.
Lemma pow_lin t m : 0 <= t -> INR m * t <= / 11 -> (1 + t) ^ m <= 1 + 11 / 10 * INR m * t.
Proof.
  intros T. induction m as [|m IH]; intros B; [cbn; lra|]. rewrite S_INR in *. assert (M0 : 0 <= INR m) by apply pos_INR. assert (I : INR m * t <= / 11) by lra. specialize (IH I). cbn [pow]. assert (0 <= (1 + t) ^ m) by (apply pow_le; lra). nra.
Qed.
(** With library functions accurate to one unit roundoff, and any length the machine can hold, the
    error is at most 30 u log2(n) times the sum of the moduli of the data. *)
Theorem fft64_log_error : forall cos64 sin64 valid64 m fuel x y, (m <= 53)%nat ->
  (forall x, fin x -> Rabs (val x) <= 4 -> fin (cos64 x) /\ Rabs (val (cos64 x) - cos (val x)) <= u) ->
  (forall x, fin x -> Rabs (val x) <= 4 -> fin (sin64 x) /\ Rabs (val (sin64 x) - sin (val x)) <= u) ->
  (m < fuel)%nat -> length x = (2 ^ m)%nat -> fft_complex64 cos64 sin64 valid64 fuel x = Ret y -> List.Forall cfin y ->
  forall k z, nth_error y k = Some z -> Cmod (Cminus (cval z) (dft (map cval x) k)) <= 30 * INR m * u * norm1 (map cval x) + 3 ^ S m * eta.
Proof.
  intros cos64 sin64 valid64 m fuel x y M HC HS HF L H FY k z Z. pose proof u_pos as U. pose proof u_tiny as UT. pose proof eta_pos as E0.
  assert (SM : small (2 ^ m)). { unfold small. rewrite Nat2Z.inj_pow. apply Z.pow_le_mono_r; lia. }
  pose proof (twiddles64_accurate cos64 sin64 u (2 ^ m) SM HC HS) as AC. replace (2 * (u + 10 * u)) with (22 * u) in AC by ring.
  destruct (fft64_error cos64 sin64 valid64 (22 * u) m fuel x y ltac:(lra) AC HF L H FY) as (_ & _ & E). eapply Rle_trans; [apply (E k z Z)|]. clear E.
  set (c := (1 + u) * (1 + (2 * ((1 + u) ^ 2 - 1) * (1 + 22 * u) + 22 * u))). assert (C0 : 0 <= c - 1 <= 272 / 10 * u).
  { unfold c. assert (Q : 0 <= 2 * ((1 + u) ^ 2 - 1) * (1 + 22 * u) <= 401 / 100 * u). { assert (A : 0 <= (1 + u) ^ 2 - 1 <= 2001 / 1000 * u) by nra. split; [apply Rmult_le_pos; lra|]. apply Rle_trans with (2 * (2001 / 1000 * u) * (1 + 22 * u)); [apply Rmult_le_compat_r; lra|]. nra. }
    set (q := 2 * ((1 + u) ^ 2 - 1) * (1 + 22 * u)) in *. nra. }
  assert (MI : INR m <= 53) by (replace 53 with (INR 53) by (cbn; lra); apply le_INR, M). assert (M0 : 0 <= INR m) by apply pos_INR.
  pose proof (pow_lin (c - 1) m ltac:(lra) ltac:(nra)) as P. replace (1 + (c - 1)) with c in P by ring.
  assert (P' : c ^ m - 1 <= 30 * INR m * u). { assert (INR m * (c - 1) <= INR m * (272 / 10 * u)) by (apply Rmult_le_compat_l; lra). assert (0 <= INR m * u) by (apply Rmult_le_pos; lra). nra. }
  apply Rplus_le_compat; [apply Rmult_le_compat_r; [apply norm1_pos|exact P']|]. cbn [pow]. nra.
Qed.
Print Assumptions fft64_log_error.
(** an accurate library, four data, and finite coefficients *)
Example fft64_meets : let cs x := fix52 (cos (val x)) in let sn x := fix52 (sin (val x)) in
  let x := [(one, zero); (lit 3 0, zero); (zero, two); (lit (-1) 0, one)] in
  accurate cs sn (2 ^ 2) (22 * u) /\ 0 <= 22 * u <= / 100 /\ exists y, fft_complex64 cs sn (fun n => Nat.eqb n 4) 3 x = Ret y /\ List.Forall cfin y.
Proof.
  cbv zeta. assert (D : 0 <= 22 * u <= / 100) by (pose proof u_pos; pose proof u_tiny; lra).
  assert (AC : accurate (fun x => fix52 (cos (val x))) (fun x => fix52 (sin (val x))) (2 ^ 2) (22 * u)).
  { replace (22 * u) with (2 * (u + 10 * u)) by ring. apply twiddles64_accurate; [unfold small; cbn; lia|apply (proj1 twiddles64_meets)|apply (proj2 twiddles64_meets)]. }
  split; [exact AC|]. split; [exact D|].
  destruct (fft64_finite _ _ (fun n => Nat.eqb n 4) (22 * u) 2 3 [(one, zero); (lit 3 0, zero); (zero, two); (lit (-1) 0, one)] D AC ltac:(lia) eq_refl eq_refl) as (y & Y & _ & F); [| |exists y; split; assumption].
  - repeat (apply List.Forall_cons; [split; vm_compute; reflexivity|]). apply List.Forall_nil.
  - assert (N : norm1 (map cval [(one, zero); (lit 3 0, zero); (zero, two); (lit (-1) 0, one)]) <= 8).
    { unfold norm1. cbn [map fold_right]. unfold cval. cbn [fst snd]. rewrite (proj2 one_R), (proj2 two_R), (proj2 (int_lit 3 ltac:(lia))), (proj2 (int_lit (-1) ltac:(lia))). change (val zero) with 0.
      pose proof (cmod_sum 1 0). pose proof (cmod_sum 3 0). pose proof (cmod_sum 0 2). pose proof (cmod_sum (-1) 1). rewrite ?Rabs_R0, ?Rabs_R1 in *. rewrite (Rabs_pos_eq 3) in * by lra. rewrite (Rabs_pos_eq 2) in * by lra. rewrite (Rabs_left (-1)) in * by lra. lra. }
    pose proof (cfac_range (22 * u) D) as C. unfold cfac in C. pose proof u_pos. pose proof u_tiny. pose proof eta_pos. pose proof eta_tiny. set (c := 2 * ((1 + u) ^ 2 - 1) * (1 + 22 * u) + 22 * u) in *.
    assert (G : 0 <= (1 + u) * (1 + c) <= 2) by nra. assert (G2 : 0 <= ((1 + u) * (1 + c)) ^ 2 <= 4) by nra. pose proof (norm1_pos (map cval [(one, zero); (lit 3 0, zero); (zero, two); (lit (-1) 0, one)])) as NP.
    assert (bpow radix2 10 <= bpow radix2 1023) by (apply bpow_le; lia). change (bpow radix2 10) with 1024 in *. cbn [pow] in *. nra.
Qed.
