(** C92: sums, means, variances and correlations computed with binary64 arithmetic. *)
From Coq Require Import ZArith Reals Lra Lia List Bool Psatz Permutation.
From Flocq Require Import Core.Core IEEE754.BinarySingleNaN.
From Verif Require Import Res F64Model F64Base.
Import ListNotations.
Open Scope R_scope.

(** the exact sum and the sum of magnitudes *)
Definition exact (l : list f64) : R := fold_right Rplus 0 (map val l).
Definition mag (l : list f64) : R := fold_right Rplus 0 (map (fun x => Rabs (val x)) l).

Lemma mag_pos l : 0 <= mag l.
Proof. unfold mag. induction l; simpl. lra. pose proof (Rabs_pos (val a)). lra. Qed.
Lemma pow_ge n : 1 <= (1 + u) ^ n. Proof. apply pow_R1_Rle. pose proof u_pos. lra. Qed.
Lemma perm_sum (f : f64 -> R) l l' : Permutation l l' -> fold_right Rplus 0 (map f l) = fold_right Rplus 0 (map f l').
Proof. induction 1; simpl; lra. Qed.

Lemma fold_err l : forall a, fin (fold_left fadd l a) ->
  fin a /\ Forall fin l /\ Rabs (val (fold_left fadd l a) - (val a + exact l)) <= ((1 + u) ^ length l - 1) * (Rabs (val a) + mag l).
Proof.
  induction l as [| x l IH]; intros a H.
  - simpl in *. split. exact H. split. constructor. unfold exact. simpl. replace (val a - (val a + 0)) with 0 by ring. rewrite Rabs_R0. lra.
  - simpl in H. destruct (IH _ H) as (A & B & C). destruct (fadd_fin _ _ A) as (Fa & Fx & E & _).
    split. exact Fa. split. constructor; assumption. simpl fold_left. set (s := val (fold_left fadd l (fadd a x))) in *. rewrite E in C.
    destruct (rnd_plus_err (val a) (val x) (val_fmt a) (val_fmt x)) as (e & He & R). rewrite R in C.
    unfold exact, mag in *. simpl. set (X := fold_right Rplus 0 (map val l)) in *. pose proof (mag_pos l) as MP. unfold mag in MP.
    set (M := fold_right Rplus 0 (map (fun x0 => Rabs (val x0)) l)) in *. pose proof (pow_ge (length l)) as G. set (g := (1 + u) ^ length l) in *.
    pose proof u_pos as U. set (p := Rabs (val a)) in *. set (q := Rabs (val x)) in *. assert (0 <= p) by apply Rabs_pos. assert (0 <= q) by apply Rabs_pos.
    assert (S : Rabs (val a + val x) <= p + q) by apply Rabs_triang.
    assert (T : Rabs ((val a + val x) * (1 + e)) <= (p + q) * (1 + u)).
    { rewrite Rabs_mult. apply Rmult_le_compat; try apply Rabs_pos. exact S. eapply Rle_trans. apply Rabs_triang. rewrite Rabs_R1. lra. }
    assert (V : Rabs ((val a + val x) * e) <= (p + q) * u). { rewrite Rabs_mult. apply Rmult_le_compat; try apply Rabs_pos; assumption. }
    replace (s - (val a + (val x + X))) with (s - ((val a + val x) * (1 + e) + X) + (val a + val x) * e) by ring.
    eapply Rle_trans. apply Rabs_triang. eapply Rle_trans. apply Rplus_le_compat. exact C. exact V.
    assert ((g - 1) * (Rabs ((val a + val x) * (1 + e)) + M) <= (g - 1) * ((p + q) * (1 + u) + M)) by (apply Rmult_le_compat_l; lra).
    eapply Rle_trans. apply Rplus_le_compat_r. exact H2.
    assert (0 <= M * (g * u)) by (apply Rmult_le_pos; [exact MP | apply Rmult_le_pos; lra]). simpl pow. fold g. lra.
Qed.

Lemma fold_zero neg x : fin x -> val (fadd (B754_zero neg) x) = val x /\ fin (fadd (B754_zero neg) x).
Proof. intros X. destruct (fadd_R (B754_zero neg) x eq_refl X) as [A B].
  - change (val (B754_zero neg)) with 0. rewrite Rplus_0_l, rnd_id by apply val_fmt. apply val_lt.
  - split. rewrite B. change (val (B754_zero neg)) with 0. rewrite Rplus_0_l. apply rnd_id, val_fmt. exact A. Qed.

(** A finite sum was computed from finite numbers, and differs from the exact sum by at most
    [(1 + 2^-53)^(n-1) - 1] times the sum of the magnitudes. *)
Theorem sum_error neg l : fin (fsum neg l) ->
  Forall fin l /\ Rabs (val (fsum neg l) - exact l) <= ((1 + u) ^ (length l - 1) - 1) * mag l.
Proof.
  unfold fsum. destruct l as [| x l].
  - intros _. split. constructor. unfold exact, mag. simpl. change (val (B754_zero neg)) with 0. rewrite Rminus_0_r, Rabs_R0. lra.
  - simpl fold_left. intros H. destruct (fold_err l _ H) as (A & B & C). destruct (fadd_fin _ _ A) as (_ & X & _). split. constructor; assumption.
    rewrite (proj1 (fold_zero neg x X)) in C. simpl length. rewrite Nat.sub_succ, Nat.sub_0_r. exact C.
Qed.

Lemma fold_fin l : forall a, fin a -> Forall fin l -> (1 + u) ^ length l * (Rabs (val a) + mag l) < fmaxR -> fin (fold_left fadd l a).
Proof.
  induction l as [| x l IH]; intros a A L B; simpl. exact A. inversion L; subst.
  unfold mag in B. simpl in B. pose proof (mag_pos l) as MP. unfold mag in MP. set (M := fold_right Rplus 0 (map (fun x0 => Rabs (val x0)) l)) in *.
  pose proof (pow_ge (length l)) as G. pose proof u_pos as U. set (g := (1 + u) ^ length l) in *.
  destruct (rnd_plus_err (val a) (val x) (val_fmt a) (val_fmt x)) as (e & He & R).
  assert (T : Rabs (rnd (val a + val x)) <= (1 + u) * (Rabs (val a) + Rabs (val x))).
  { rewrite R, Rabs_mult, Rmult_comm. apply Rmult_le_compat; try apply Rabs_pos. eapply Rle_trans. apply Rabs_triang. rewrite Rabs_R1. lra. apply Rabs_triang. }
  pose proof (Rabs_pos (val a)). pose proof (Rabs_pos (val x)). set (p := Rabs (val a)) in *. set (q := Rabs (val x)) in *. set (t := Rabs (rnd (val a + val x))) in *.
  assert (K : g * (t + M) < fmaxR). { apply Rle_lt_trans with (2 := B). rewrite (Rmult_comm (1 + u) g), Rmult_assoc. apply Rmult_le_compat_l. lra. nra. }
  destruct (fadd_R a x A H1) as [P Q]. { fold t. assert (0 <= t) by apply Rabs_pos. nra. }
  apply IH; try assumption. rewrite Q. exact K.
Qed.
(** A sum of finite numbers is finite when the magnitudes stay below the overflow threshold. *)
Theorem sum_finite neg l : Forall fin l -> (1 + u) ^ (length l - 1) * mag l < fmaxR -> fin (fsum neg l).
Proof. unfold fsum. destruct l as [| x l]; intros L B. reflexivity. inversion L; subst. simpl fold_left. destruct (fold_zero neg x H1) as [V W].
  apply fold_fin; try assumption. rewrite V. simpl length in B. rewrite Nat.sub_succ, Nat.sub_0_r in B. exact B. Qed.

(** Any two orders agree up to twice the bound. *)
Theorem sum_order neg neg' l l' : Permutation l l' -> fin (fsum neg l) -> fin (fsum neg' l') ->
  Rabs (val (fsum neg l) - val (fsum neg' l')) <= 2 * ((1 + u) ^ (length l - 1) - 1) * mag l.
Proof. intros P A B. destruct (sum_error neg l A) as [_ E]. destruct (sum_error neg' l' B) as [_ E'].
  rewrite <- (Permutation_length P) in E'. unfold exact, mag in *. rewrite <- (perm_sum val _ _ P), <- (perm_sum (fun x => Rabs (val x)) _ _ P) in E'.
  set (X := fold_right Rplus 0 (map val l)) in *. replace (val (fsum neg l) - val (fsum neg' l')) with (val (fsum neg l) - X + - (val (fsum neg' l') - X)) by ring.
  eapply Rle_trans. apply Rabs_triang. rewrite Rabs_Ropp. lra. Qed.

(** A sum does not decrease when a term increases. *)
Lemma fold_mono l : forall l' a a', val a <= val a' -> Forall2 (fun x y => val x <= val y) l l' -> fin (fold_left fadd l a) -> fin (fold_left fadd l' a') ->
  val (fold_left fadd l a) <= val (fold_left fadd l' a').
Proof. induction l as [| x l IH]; intros l' a a' A H F F'; inversion H; subst; simpl in *. exact A.
  apply IH; try assumption. destruct (fold_err _ _ F) as (G & _). destruct (fold_err _ _ F') as (G' & _).
  destruct (fadd_fin _ _ G) as (_ & _ & E & _). destruct (fadd_fin _ _ G') as (_ & _ & E' & _). rewrite E, E'. apply rnd_le. lra. Qed.
Theorem sum_monotone neg l l' : Forall2 (fun x y => val x <= val y) l l' -> fin (fsum neg l) -> fin (fsum neg l') -> val (fsum neg l) <= val (fsum neg l').
Proof. apply fold_mono. lra. Qed.

(** But the order matters: with Rust's hash maps, whose iteration order is random, two runs
    return different portfolio values. *)
Theorem sum_order_refuted : exists l l', Permutation l l' /\ Forall fin l /\ forall neg, fin (fsum neg l) /\ fin (fsum neg l') /\ flt (fsum neg l) (fsum neg l') = true.
Proof. exists [lit 1 53; one; one], [one; one; lit 1 53]. split. apply (Permutation_cons_append [one; one] (lit 1 53)).
  split. repeat constructor. intros []; repeat split; reflexivity. Qed.
Theorem portfolio_order_refuted : exists l l', Permutation l l' /\ forall neg, fin (portfolio_value64 neg l) /\ fin (portfolio_value64 neg l') /\ flt (portfolio_value64 neg l) (portfolio_value64 neg l') = true.
Proof. exists [(2, lit 1 52); (1, one); (1, one)]%N, [(1, one); (1, one); (2, lit 1 52)]%N. split. apply (Permutation_cons_append [(1, one); (1, one)]%N (2, lit 1 52)%N).
  intros []; repeat split; reflexivity. Qed.
(** The value does not decrease with the prices, whatever the quantities and the order. *)
Lemma mul_mono x p p' : 0 <= val x -> val p <= val p' -> fin (fmul x p) -> fin (fmul x p') -> val (fmul x p) <= val (fmul x p').
Proof. intros X P A B. destruct (fmul_fin _ _ A) as (_ & _ & E & _). destruct (fmul_fin _ _ B) as (_ & _ & E' & _). rewrite E, E'. apply rnd_le. nra. Qed.
Lemma lit_nonneg z : (0 <= z)%Z -> 0 <= val (lit z 0).
Proof. intros H. pose proof (binary_normalize_correct 53 1024 p53 pe53 mode_NE z 0 false) as C. cbv zeta in C. revert C. case Rlt_bool_spec; intros _ C.
  - destruct C as (C & _). unfold lit, val. rewrite C. apply (rnd_ge 0). apply generic_format_0. unfold F2R. simpl. rewrite Rmult_1_r. apply IZR_le, H.
  - unfold lit, val. destruct (binary_normalize 53 1024 p53 pe53 mode_NE z 0 false); simpl in C; try discriminate. simpl. lra. Qed.
Theorem portfolio_monotone neg l l' : Forall2 (fun p q => fst p = fst q /\ val (snd p) <= val (snd q)) l l' ->
  fin (portfolio_value64 neg l) -> fin (portfolio_value64 neg l') -> val (portfolio_value64 neg l) <= val (portfolio_value64 neg l').
Proof. unfold portfolio_value64. intros H A B. destruct (sum_error _ _ A) as [FA _]. destruct (sum_error _ _ B) as [FB _]. apply sum_monotone; try assumption. clear A B.
  induction H as [| [q p] [q' p'] l l' [E P] H IH]; simpl in *; constructor.
  - subst q'. inversion FA; inversion FB; subst. apply mul_mono; try assumption. apply lit_nonneg. lia.
  - inversion FA; inversion FB; subst. apply IH; assumption. Qed.

(** *** Means *)
Theorem mean_error neg l m : mean64 neg l = Ret m -> fin m -> small (length l) ->
  Forall fin l /\ Rabs (val m - exact l / INR (length l)) <= ((1 + u) ^ length l - 1) * (mag l / INR (length l)) + eta.
Proof.
  unfold mean64. intros H M Sm. destruct l as [| x l]. discriminate. assert (E : fdiv (fsum neg (x :: l)) (of_usize (length (x :: l))) = m) by (injection H; auto). clear H.
  destruct (usize_R _ Sm) as [_ N]. subst m. set (k := length (x :: l)) in *. assert (K : 0 < INR k) by (apply lt_0_INR; unfold k; simpl; lia).
  destruct (fdiv_fin _ _ (Rgt_not_eq _ _ (eq_ind_r (fun z => z > 0) K N)) M) as (A & B & _).
  destruct (sum_error neg _ A) as [F E]. split. exact F. rewrite B, N. set (s := val (fsum neg (x :: l))) in *.
  destruct (rnd_err (s / INR k)) as (e & h & He & Hh & R). rewrite R. set (X := exact (x :: l)) in *. set (Mg := mag (x :: l)) in *. assert (0 <= Mg) by apply mag_pos.
  replace (length (x :: l) - 1)%nat with (k - 1)%nat in E by reflexivity.
  assert (GK : (1 + u) ^ k = (1 + u) * (1 + u) ^ (k - 1)) by (replace k with (S (k - 1)) at 1 by (unfold k; simpl; lia); reflexivity).
  rewrite GK. pose proof (pow_ge (k - 1)) as G. set (g := (1 + u) ^ (k - 1)) in *. pose proof u_pos as U.
  assert (XM : Rabs X <= Mg). { unfold X, Mg, exact, mag. clear. induction (x :: l) as [| y r IH]; simpl. rewrite Rabs_R0. lra. eapply Rle_trans. apply Rabs_triang. lra. }
  assert (SM : Rabs s <= g * Mg). { replace s with ((s - X) + X) by ring. eapply Rle_trans. apply Rabs_triang. lra. }
  replace (s / INR k * (1 + e) + h - X / INR k) with ((s - X + s * e) / INR k + h) by (field; lra).
  eapply Rle_trans. apply Rabs_triang. apply Rplus_le_compat. 2: exact Hh. unfold Rdiv. rewrite Rabs_mult, (Rabs_pos_eq (/ INR k)) by (left; apply Rinv_0_lt_compat, K).
  rewrite <- Rmult_assoc. apply Rmult_le_compat_r. left; apply Rinv_0_lt_compat, K. eapply Rle_trans. apply Rabs_triang. rewrite Rabs_mult.
  assert (Rabs s * Rabs e <= g * Mg * u) by (apply Rmult_le_compat; try apply Rabs_pos; assumption). nra.
Qed.
Theorem mean_panics neg l : mean64 neg l = Panic <-> l = [].
Proof. unfold mean64. destruct l; split; intros H; try reflexivity; discriminate. Qed.

Lemma res_test {A} (r : res A) P : match r with Ret c => P c | _ => false end = true -> exists c, r = Ret c /\ P c = true.
Proof. destruct r; try discriminate. eauto. Qed.
Lemma same (x y : f64) : B2SF x = B2SF y -> x = y. Proof. apply B2SF_inj. Qed.
Lemma same_res (r : res f64) (y : f64) : match r with Ret x => Some (B2SF x) | _ => None end = Some (B2SF y) -> r = Ret y.
Proof. destruct r; try discriminate. intros E. f_equal. apply same. congruence. Qed.
Definition tenth : f64 := lit 3602879701896397 (-55).
Definition fmaxv : f64 := lit (2 ^ 53 - 1) 971.
(** The mean of a vector is not always between its smallest and its largest element. *)
Theorem mean_range_refuted : exists l, Forall fin l /\ forall neg, exists m, mean64 neg l = Ret m /\ fin m /\ Forall (fun x => flt x m = true) l.
Proof. exists [tenth; tenth; tenth]. split. repeat constructor. intros []; (eexists; split; [reflexivity |]); repeat constructor. Qed.
(** The mean of two finite numbers may overflow. *)
Theorem mean_overflow_refuted : exists l, Forall fin l /\ forall neg, mean64 neg l = Ret pinf.
Proof. exists [fmaxv; fmaxv]. split. repeat constructor. intros []; apply same_res; vm_compute; reflexivity. Qed.

(** *** Variances *)
Definition nn (x : f64) : Prop := is_nan x = true \/ fle zero x = true.
Lemma nn_fin x : fin x -> 0 <= val x -> nn x. Proof. intros X V. right. apply fle_R. reflexivity. exact X. exact V. Qed.
Lemma nn_val x : fin x -> nn x -> 0 <= val x. Proof. intros X [N | N]. destruct x; discriminate. apply (fle_R zero x eq_refl X) in N. exact N. Qed.
Lemma nn_over (z : f64) : B2SF z = binary_overflow 53 1024 mode_NE false -> nn z.
Proof. intros E. right. unfold fle, Bleb. rewrite E. reflexivity. Qed.
Lemma nn_sq x : nn (sq64 x).
Proof. unfold sq64. pose proof (Bmult_correct 53 1024 _ _ mode_NE x x) as C. revert C. case Rlt_bool_spec; intros B C.
  - destruct C as (C & D & _). destruct x as [s | s | | s m e b]; try (right; destruct s; reflexivity). left; reflexivity.
    apply nn_fin. unfold fin, fmul. rewrite D. reflexivity. unfold val, fmul. rewrite C. apply (rnd_ge 0). apply generic_format_0. apply Rle_0_sqr.
  - apply nn_over. unfold fmul. rewrite C, xorb_nilpotent. reflexivity. Qed.
Lemma nn_sign x : fin x -> nn x -> Bsign x = true -> val x = 0.
Proof. intros X N S. apply nn_val in N; [| exact X]. destruct x as [s | s | | s m e b]; try reflexivity. simpl in S. subst s. unfold val in *. simpl in *.
  pose proof (F2R_lt_0 radix2 (Float radix2 (Zneg m) e)) as K. simpl in K. specialize (K eq_refl). lra. Qed.
Lemma nn_add x y : nn x -> nn y -> nn (fadd x y).
Proof. intros X Y. destruct (is_finite x) eqn:A.
  - destruct (is_finite y) eqn:B.
    + pose proof (Bplus_correct 53 1024 _ _ mode_NE x y A B) as C. revert C. case Rlt_bool_spec; intros L C.
      * destruct C as (C & D & _). apply nn_fin. exact D. unfold val, fadd. rewrite C. apply (rnd_ge 0). apply generic_format_0. pose proof (nn_val _ A X). pose proof (nn_val _ B Y). unfold val in *. lra.
      * destruct C as [C S]. destruct (Bsign x) eqn:SX. 2: apply nn_over, C. exfalso. revert L. change (B2R x) with (val x). change (B2R y) with (val y). rewrite (nn_sign x A X SX), (nn_sign y B Y (eq_sym S)), Rplus_0_l.
        change (round radix2 (SpecFloat.fexp 53 1024) (round_mode mode_NE) 0) with (rnd 0). rewrite rnd_0, Rabs_R0. pose proof (bpow_gt_0 radix2 1024). lra.
    + destruct y as [s | s | | s m e b]; try discriminate B; destruct x; try discriminate A; try (left; reflexivity); (destruct s; [destruct Y; discriminate | right; reflexivity]).
  - destruct x as [s | s | | s m e b]; try discriminate A. 2: left; destruct y; reflexivity. destruct s; [destruct X; discriminate |].
    destruct y as [s' | s' | | s' m' e' b']; try (right; reflexivity). destruct s'; [destruct Y; discriminate | right; reflexivity]. left; reflexivity. Qed.
Lemma nn_sum neg l : Forall nn l -> nn (fsum neg l).
Proof. unfold fsum. assert (nn (B754_zero neg)) as Z by (right; destruct neg; reflexivity). revert Z. generalize (B754_zero neg : f64). induction l as [| x l IH]; intros a A H; simpl. exact A. inversion H; subst. apply IH. apply nn_add; assumption. assumption. Qed.
Lemma usize_sign n : is_nan (of_usize n) = false /\ Bsign (of_usize n) = false /\ 0 <= val (of_usize n).
Proof. unfold of_usize, lit. pose proof (binary_normalize_correct 53 1024 p53 pe53 mode_NE (Z.of_nat n) 0 false) as C. cbv zeta in C. revert C. case Rlt_bool_spec; intros B C.
  - destruct C as (C & D & E). split. destruct (binary_normalize 53 1024 p53 pe53 mode_NE (Z.of_nat n) 0 false); try reflexivity; discriminate. split.
    + rewrite E. case Rcompare_spec; try reflexivity. intros K. exfalso. revert K. apply Rle_not_lt. unfold F2R. simpl. rewrite Rmult_1_r. apply IZR_le. lia.
    + apply lit_nonneg. lia.
  - split. destruct (binary_normalize 53 1024 p53 pe53 mode_NE (Z.of_nat n) 0 false); try reflexivity; discriminate. split.
    + assert (S : Rlt_bool (F2R (Float radix2 (Z.of_nat n) 0)) 0 = false). { apply Rlt_bool_false. unfold F2R. simpl. rewrite Rmult_1_r. apply IZR_le. lia. }
      rewrite S in C. destruct (binary_normalize 53 1024 p53 pe53 mode_NE (Z.of_nat n) 0 false); simpl in C; try discriminate. injection C. auto.
    + apply lit_nonneg. lia. Qed.
Lemma nn_div x n : nn x -> nn (fdiv x (of_usize n)).
Proof. intros X. destruct (usize_sign n) as (N & S & V). set (y := of_usize n) in *. clearbody y. destruct (Req_dec (val y) 0) as [Z | Z].
  - destruct y as [s | s | | s m e b]; try discriminate N; simpl in S; subst.
    + destruct x as [s | s | | s m e b]; try (left; reflexivity); (destruct s; [destruct X; discriminate | right; reflexivity]).
    + destruct x as [s | s | | s m e b]; try (left; reflexivity); destruct s; right; reflexivity.
    + exfalso. unfold val in Z. simpl in Z. pose proof (F2R_gt_0 radix2 (Float radix2 (Zpos m) e)) as K. simpl in K. specialize (K eq_refl). lra.
  - pose proof (Bdiv_correct 53 1024 _ _ mode_NE x y Z) as C. destruct (is_finite x) eqn:A.
    + revert C. case Rlt_bool_spec; intros B C.
      * destruct C as (C & D & _). apply nn_fin. unfold fin, fdiv. exact D. unfold val, fdiv. rewrite C. apply (rnd_ge 0). apply generic_format_0. pose proof (nn_val _ A X). unfold val in *. apply Rmult_le_pos. lra. left. apply Rinv_0_lt_compat. lra.
      * rewrite S, xorb_false_r in C. destruct (Bsign x) eqn:SX. 2: apply nn_over, C. exfalso. revert B. change (B2R x) with (val x). rewrite (nn_sign x A X SX). unfold Rdiv. rewrite Rmult_0_l.
        change (round radix2 (SpecFloat.fexp 53 1024) (round_mode mode_NE) 0) with (rnd 0). rewrite rnd_0, Rabs_R0. pose proof (bpow_gt_0 radix2 1024). lra.
    + destruct x as [s | s | | s m e b]; try discriminate A. 2: left; destruct y; reflexivity. destruct s; [destruct X; discriminate |]. destruct y; try (left; reflexivity); simpl in S; subst; right; reflexivity. Qed.
(** A variance is never negative: it is a NaN or at least zero. *)
Theorem variance_nonneg neg l v : sample_variance64 neg l = Ret v \/ population_variance64 neg l = Ret v -> is_nan v = true \/ fle zero v = true.
Proof. assert (Q : forall m, nn (fsum neg (map (fun x => sq64 (fsub x m)) l))). { intros m. apply nn_sum. apply Forall_forall. intros x Hx. apply in_map_iff in Hx. destruct Hx as (y & <- & _). apply nn_sq. }
  intros [H | H]; unfold sample_variance64, population_variance64, mean64 in H; destruct (nonempty l); try discriminate; cbn in H; injection H as <-; apply nn_div, Q. Qed.
Lemma nn_sqrt x : nn x -> nn (fsqrt x).
Proof. intros X. destruct (Bsqrt_correct 53 1024 _ _ mode_NE x) as (C & D & E). destruct x as [s | s | | s m e b]; try (right; destruct s; reflexivity). destruct X as [X | X]; [discriminate |]. destruct s; [discriminate | right; reflexivity]. left; reflexivity.
  destruct s. { apply nn_sign in X; try reflexivity. exfalso. unfold val in X. simpl in X. pose proof (F2R_lt_0 radix2 (Float radix2 (Zneg m) e)) as K. simpl in K. specialize (K eq_refl). lra. }
  apply nn_fin. exact D. unfold val, fsqrt. rewrite C. apply (rnd_ge 0). apply generic_format_0. apply sqrt_pos. Qed.
Theorem deviation_nonneg neg l s : standard_deviation64 neg l = Ret s -> is_nan s = true \/ fle zero s = true.
Proof. unfold standard_deviation64. destruct (1 <? length l)%nat; [| discriminate]. cbn. destruct (sample_variance64 neg l) as [v | |] eqn:E; try discriminate. intros H. injection H as <-. apply nn_sqrt. eapply variance_nonneg. left. exact E. Qed.

(** The sample variance of a single number is a NaN, the population variance of a finite one zero. *)
Lemma fdiv_one x : fin x -> fin (fdiv x (of_usize 1)) /\ val (fdiv x (of_usize 1)) = val x.
Proof. intros X. destruct (usize_R 1) as [_ N]. unfold small. cbn. discriminate. change (INR 1) with 1 in N. destruct (fdiv_R x (of_usize 1) X) as [A B].
  - rewrite N. lra.
  - rewrite N. unfold Rdiv. rewrite Rinv_1, Rmult_1_r, rnd_id by apply val_fmt. apply val_lt.
  - split. exact A. rewrite B, N. unfold Rdiv. rewrite Rinv_1, Rmult_1_r. apply rnd_id, val_fmt. Qed.
Lemma single_dev neg x : fin x -> exists s, fsub x (fdiv (fsum neg [x]) (of_usize 1)) = B754_zero s.
Proof. intros X. destruct (fold_zero neg x X) as [V W]. destruct (fdiv_one _ W) as [A B]. change (fadd (B754_zero neg) x) with (fsum neg [x]) in *. rewrite V in B.
  destruct (fsub_R x _ X A) as [P Q]. { rewrite B, (Rminus_diag_eq _ _ eq_refl), rnd_0, Rabs_R0. apply bpow_gt_0. }
  rewrite B, (Rminus_diag_eq _ _ eq_refl), rnd_0 in Q. destruct (fsub x (fdiv (fsum neg [x]) (of_usize 1))) as [s | s | | s m e b]; try discriminate P. exists s; reflexivity.
  exfalso. unfold val in Q. simpl in Q. apply eq_0_F2R in Q. destruct s; discriminate. Qed.
Theorem single_variance neg x : sample_variance64 neg [x] = Ret nan /\ (fin x -> population_variance64 neg [x] = Ret zero).
Proof. split.
  - destruct (is_finite x) eqn:X.
    + destruct (single_dev neg x X) as [s E]. unfold sample_variance64, mean64. cbn [nonempty length Nat.eqb negb assertb bind map Nat.sub]. rewrite E. destruct neg, s; reflexivity.
    + destruct x as [s | s | | s m e b]; try discriminate X; destruct neg; try destruct s; reflexivity.
  - intros X. destruct (single_dev neg x X) as [s E]. unfold population_variance64, mean64. cbn [nonempty length Nat.eqb negb assertb bind map Nat.sub]. rewrite E. destruct neg, s; reflexivity. Qed.
(** The variance of a constant vector need not be zero, so the correlation with a constant vector
    is computed instead of being rejected. *)
Theorem constant_variance_refuted : exists l, (forall x y, In x l -> In y l -> x = y) /\ forall neg, (exists v, sample_variance64 neg l = Ret v /\ flt zero v = true) /\ exists c, correlation64 neg l l = Ret c /\ is_finite c = true.
Proof. exists [tenth; tenth; tenth]. split. { intros x y X Y. destruct X as [<- | [<- | [<- | []]]]; destruct Y as [<- | [<- | [<- | []]]]; reflexivity. }
  intros neg; split; apply res_test; destruct neg; vm_compute; reflexivity. Qed.
(** A correlation may exceed one. *)
Theorem correlation_bound_refuted : exists l, Forall fin l /\ forall neg, exists c, correlation64 neg l l = Ret c /\ (is_finite c && flt one c)%bool = true.
Proof. exists [zero; lit 3 0; lit 3 0]. split. repeat constructor. intros neg; apply res_test; destruct neg; vm_compute; reflexivity. Qed.

(** *** Running sums *)
Lemma cumsum_from l : forall a k, (k < length l)%nat -> nth_error (cumsum64_from a l) k = Some (fold_left fadd (firstn (S k) l) a).
Proof. induction l as [| x l IH]; intros a k H; simpl in H. lia. destruct k. reflexivity. simpl nth_error. rewrite IH by lia. reflexivity. Qed.
Theorem cumsum_prefix l : length (cumsum64 l) = length l /\ forall k, (k < length l)%nat -> nth_error (cumsum64 l) k = Some (fsum false (firstn (S k) l)).
Proof. split. unfold cumsum64. generalize zero. induction l; intros a'; simpl; auto. intros k. apply cumsum_from. Qed.
Theorem cumsum_monotone l k x y : Forall (fun z => 0 <= val z) l -> nth_error (cumsum64 l) k = Some x -> nth_error (cumsum64 l) (S k) = Some y -> fin y -> val x <= val y.
Proof. unfold cumsum64. intros H. revert k. generalize zero. induction H as [| z l Z H IH]; intros a k X Y F. destruct k; discriminate.
  destruct k. 2: apply (IH _ _ X Y F). simpl in X. injection X as <-. destruct l as [| w l]. discriminate. simpl in Y. injection Y as <-. inversion H; subst.
  destruct (fadd_fin _ _ F) as (_ & _ & E & _). rewrite E. apply rnd_ge. apply val_fmt. lra. Qed.

Print Assumptions sum_error.
Print Assumptions sum_finite.
Print Assumptions sum_order.
Print Assumptions sum_monotone.
Print Assumptions sum_order_refuted.
Print Assumptions portfolio_order_refuted.
Print Assumptions portfolio_monotone.
Print Assumptions mean_error.
Print Assumptions mean_panics.
Print Assumptions mean_range_refuted.
Print Assumptions mean_overflow_refuted.
Print Assumptions variance_nonneg.
Print Assumptions deviation_nonneg.
Print Assumptions single_variance.
Print Assumptions constant_variance_refuted.
Print Assumptions correlation_bound_refuted.
Print Assumptions cumsum_prefix.
Print Assumptions cumsum_monotone.

(** Non-vacuity *)
Example sum_case : fin (fsum false [tenth; one; two]) /\ fsum false [one; two; lit 5 0] = lit 8 0 /\ fsum false [tenth; tenth; tenth] = lit 5404319552844596 (-54).
Proof. split. reflexivity. split; apply same; vm_compute; reflexivity. Qed.
Example mean_case : mean64 false [one; two; lit 6 0] = Ret (lit 3 0) /\ fin (lit 3 0) /\ small 3.
Proof. split. apply same_res; vm_compute; reflexivity. split. reflexivity. unfold small. cbn. discriminate. Qed.
Example variance_case : sample_variance64 false [one; two; lit 6 0] = Ret (lit 7 0) /\ standard_deviation64 true [zero; zero; lit 6 0; lit 6 0] = Ret (fsqrt (lit 12 0)).
Proof. split; apply same_res; vm_compute; reflexivity. Qed.
Example cumsum_case : map B2SF (cumsum64 [one; two; tenth]) = map B2SF [one; lit 3 0; lit 6980579422424269 (-51)].
Proof. vm_compute. reflexivity. Qed.
Example portfolio_case : portfolio_value64 false [(3, two); (5, one)]%N = lit 11 0 /\ fin (portfolio_value64 false [(3, two); (5, tenth)]%N).
Proof. split. apply same; vm_compute; reflexivity. reflexivity. Qed.

(** the correlation is defined exactly for two equally long vectors of at least
    two entries, neither of which has the standard deviation 0.0; otherwise it panics *)
Theorem correlation_domain : forall neg l k,
  (exists c, correlation64 neg l k = Ret c /\ length l = length k /\ (2 <= length l)%nat /\
     exists sx sy, standard_deviation64 neg l = Ret sx /\ standard_deviation64 neg k = Ret sy /\ feq sx zero = false /\ feq sy zero = false) \/
  (correlation64 neg l k = Panic /\ (length l <> length k \/ (length l <= 1)%nat \/
     (exists s, (standard_deviation64 neg l = Ret s \/ standard_deviation64 neg k = Ret s) /\ feq s zero = true))).
Proof.
  intros neg l k. assert (D : forall x, (1 < length x)%nat -> exists s, standard_deviation64 neg x = Ret s).
  { intros x L. unfold standard_deviation64, sample_variance64, mean64, nonempty. rewrite (proj2 (Nat.ltb_lt 1 (length x)) L). replace (length x =? 0)%nat with false by (symmetry; apply Nat.eqb_neq; lia). cbn. eexists. reflexivity. }
  unfold correlation64, covariance64. destruct (Nat.eqb_spec (length l) (length k)) as [E | E]; cbn [assertb bind]. 2: right; split; [reflexivity | left; exact E].
  destruct (Nat.ltb_spec 1 (length l)) as [L | L]; cbn [assertb bind]. 2: right; split; [reflexivity | right; left; exact L].
  destruct (D l L) as (sx & X). destruct (D k) as (sy & Y). lia. rewrite X, Y. cbn [bind].
  destruct (feq sx zero) eqn:A. right. split. reflexivity. right. right. exists sx. split. left. reflexivity. exact A.
  destruct (feq sy zero) eqn:B. right. split. reflexivity. right. right. exists sy. split. right. reflexivity. exact B.
  left. eexists. split. reflexivity. split. exact E. split. lia. exists sx, sy. repeat split; assumption.
Qed.
Print Assumptions correlation_domain.
Example correlation_domain_case : match correlation64 true [one; one] [one; two] with Panic => true | _ => false end = true /\
  match correlation64 true [one; two] [two; one] with Ret c => is_finite c | _ => false end = true.
Proof. split; vm_compute; reflexivity. Qed.
