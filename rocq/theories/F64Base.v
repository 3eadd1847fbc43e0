(** Facts about the binary64 operations of [F64Model]: each is a rounding of the exact operation
    on real numbers, unless it overflows. *)
From Coq Require Import ZArith Reals Lra Lia List Bool Psatz.
From Flocq Require Import Core.Core IEEE754.BinarySingleNaN Relative Plus_error Sterbenz.
From Verif Require Import Res F64Model.
Import ListNotations.
Open Scope R_scope.

Arguments fadd : simpl never. Arguments fsub : simpl never. Arguments fmul : simpl never. Arguments fdiv : simpl never.
Arguments lit : simpl never. Arguments of_usize : simpl never. Arguments fsqrt : simpl never.
Arguments fle : simpl never. Arguments flt : simpl never. Arguments feq : simpl never. Arguments fcmp : simpl never.

Definition val (x : f64) : R := B2R x.
Definition fin (x : f64) : Prop := is_finite x = true.
Notation F := (FLT_exp (-1074) 53).
Notation fmt := (generic_format radix2 F).
Definition rnd (x : R) : R := round radix2 F ZnearestE x.
Definition u : R := / IZR (2 ^ 53).
Definition eta : R := / 2 * bpow radix2 (-1074).
Definition fmaxR : R := bpow radix2 1024.

#[global] Instance vF : Valid_exp F. Proof. apply FLT_exp_valid. reflexivity. Qed.
#[global] Instance mF : Monotone_exp F. Proof. apply FLT_exp_monotone. Qed.

Lemma u_pos : 0 < u. Proof. unfold u. apply Rinv_0_lt_compat, IZR_lt. reflexivity. Qed.
Lemma u_small : u <= / 4. Proof. unfold u. apply Rinv_le_contravar. lra. apply IZR_le. cbn. discriminate. Qed.
Lemma eta_pos : 0 < eta. Proof. unfold eta. pose proof (bpow_gt_0 radix2 (-1074)). lra. Qed.
Lemma u_ro_u : u_ro radix2 53 = u.
Proof. unfold u_ro, u. change (bpow radix2 (- (53) + 1)) with (/ IZR (2 ^ 52)). change (2 ^ 53)%Z with (2 * 2 ^ 52)%Z. rewrite mult_IZR, Rinv_mult. reflexivity. Qed.
Lemma u_ratio e : Rabs e <= u / (1 + u) -> Rabs e <= u.
Proof. intros H. apply Rle_trans with (1 := H). pose proof u_pos. apply Rmult_le_reg_r with (1 + u). lra. replace (u / (1 + u) * (1 + u)) with u by (field; lra). nra. Qed.

(** rounding *)
Lemma rnd_le x y : x <= y -> rnd x <= rnd y. Proof. apply round_le; typeclasses eauto. Qed.
Lemma rnd_id x : fmt x -> rnd x = x. Proof. apply round_generic. typeclasses eauto. Qed.
Lemma rnd_fmt x : fmt (rnd x). Proof. apply generic_format_round; typeclasses eauto. Qed.
Lemma rnd_0 : rnd 0 = 0. Proof. apply rnd_id, generic_format_0. Qed.
Lemma rnd_ge x y : fmt x -> x <= y -> x <= rnd y. Proof. intros H L. rewrite <- (rnd_id x H). apply rnd_le, L. Qed.
Lemma rnd_le_fmt x y : fmt y -> x <= y -> rnd x <= y. Proof. intros H L. rewrite <- (rnd_id y H). apply rnd_le, L. Qed.
Lemma val_fmt x : fmt (val x). Proof. apply (generic_format_B2R 53 1024 x). Qed.
Lemma val_lt x : Rabs (val x) < fmaxR. Proof. apply (abs_B2R_lt_emax 53 1024 x). Qed.
Lemma fmt_2 x : fmt x -> fmt (2 * x).
Proof. intros H. rewrite Rmult_comm. change 2 with (bpow radix2 1).
  destruct (Req_dec x 0) as [E | E]. rewrite E, Rmult_0_l. apply generic_format_0.
  apply generic_format_FLT. apply FLT_format_generic in H. 2: reflexivity. destruct H as [f Ef M X].
  exists (Float radix2 (Fnum f) (Fexp f + 1)). rewrite Ef. unfold F2R. cbn [Fnum Fexp]. rewrite bpow_plus. ring. exact M. cbn [Fnum Fexp]. lia. Qed.
Lemma fmt_opp x : fmt x -> fmt (- x). Proof. apply generic_format_opp. Qed.

Lemma rnd_err x : exists e h, Rabs e <= u /\ Rabs h <= eta /\ rnd x = x * (1 + e) + h.
Proof. destruct (relative_error_N_FLT'_ex radix2 (-1074) 53 eq_refl (fun z => negb (Z.even z)) x) as (e & h & E & H & _ & R).
  exists e, h. split. rewrite u_ro_u in E. apply u_ratio, E. split. exact H. exact R. Qed.
Lemma rnd_plus_err x y : fmt x -> fmt y -> exists e, Rabs e <= u /\ rnd (x + y) = (x + y) * (1 + e).
Proof. intros X Y. destruct (FLT_plus_error_N_ex radix2 (-1074) 53 (fun z => negb (Z.even z)) x y X Y) as (e & E & R).
  exists e. split. rewrite u_ro_u in E. apply u_ratio, E. exact R. Qed.
Lemma rnd_minus_err x y : fmt x -> fmt y -> exists e, Rabs e <= u /\ rnd (x - y) = (x - y) * (1 + e).
Proof. intros X Y. apply (rnd_plus_err x (- y)). exact X. apply fmt_opp, Y. Qed.

(** the operations *)
Lemma over_not_fin (z : f64) s : B2SF z = binary_overflow 53 1024 mode_NE s -> is_finite z = false.
Proof. destruct z; simpl; intros E; try reflexivity; discriminate E. Qed.

Lemma fadd_R x y : fin x -> fin y -> Rabs (rnd (val x + val y)) < fmaxR -> fin (fadd x y) /\ val (fadd x y) = rnd (val x + val y).
Proof. intros X Y B. pose proof (Bplus_correct 53 1024 _ _ mode_NE x y X Y) as C. rewrite Rlt_bool_true in C by exact B. split; apply C. Qed.
Lemma fadd_fin x y : fin (fadd x y) -> fin x /\ fin y /\ val (fadd x y) = rnd (val x + val y) /\ Rabs (rnd (val x + val y)) < fmaxR.
Proof. intros H. assert (fin x /\ fin y) as [X Y].
  { unfold fin, fadd in *. destruct x as [s | s | | s m e b], y as [s' | s' | | s' m' e' b']; simpl in H; try discriminate; try (split; reflexivity). destruct (Bool.eqb s s'); discriminate. }
  split. exact X. split. exact Y. pose proof (Bplus_correct 53 1024 _ _ mode_NE x y X Y) as C.
  revert C; case Rlt_bool_spec; intros H0 C. split. apply C. exact H0. destruct C as [C _]. apply over_not_fin in C. unfold fin, fadd in H. rewrite C in H. discriminate. Qed.
Lemma fsub_R x y : fin x -> fin y -> Rabs (rnd (val x - val y)) < fmaxR -> fin (fsub x y) /\ val (fsub x y) = rnd (val x - val y).
Proof. intros X Y B. pose proof (Bminus_correct 53 1024 _ _ mode_NE x y X Y) as C. rewrite Rlt_bool_true in C by exact B. split; apply C. Qed.
Lemma fsub_fin x y : fin (fsub x y) -> fin x /\ fin y /\ val (fsub x y) = rnd (val x - val y) /\ Rabs (rnd (val x - val y)) < fmaxR.
Proof. intros H. assert (fin x /\ fin y) as [X Y].
  { unfold fin, fsub in *. destruct x as [s | s | | s m e b], y as [s' | s' | | s' m' e' b']; simpl in H; try discriminate; try (split; reflexivity). destruct (Bool.eqb s (negb s')); discriminate. }
  split. exact X. split. exact Y. pose proof (Bminus_correct 53 1024 _ _ mode_NE x y X Y) as C.
  revert C; case Rlt_bool_spec; intros H0 C. split. apply C. exact H0. destruct C as [C _]. apply over_not_fin in C. unfold fin, fsub in H. rewrite C in H. discriminate. Qed.
Lemma fmul_R x y : fin x -> fin y -> Rabs (rnd (val x * val y)) < fmaxR -> fin (fmul x y) /\ val (fmul x y) = rnd (val x * val y).
Proof. intros X Y B. pose proof (Bmult_correct 53 1024 _ _ mode_NE x y) as C. rewrite Rlt_bool_true in C by exact B. destruct C as (C & D & _). split. unfold fin, fmul. rewrite D, X, Y. reflexivity. exact C. Qed.
Lemma fmul_fin x y : fin (fmul x y) -> fin x /\ fin y /\ val (fmul x y) = rnd (val x * val y) /\ Rabs (rnd (val x * val y)) < fmaxR.
Proof. intros H. pose proof (Bmult_correct 53 1024 _ _ mode_NE x y) as C. revert C; case Rlt_bool_spec; intros H0 C.
  - destruct C as (C & D & _). unfold fin, fmul in H. rewrite D in H. apply andb_prop in H. destruct H. repeat split; auto.
  - apply over_not_fin in C. unfold fin, fmul in H. rewrite C in H. discriminate. Qed.
Lemma fdiv_R x y : fin x -> val y <> 0 -> Rabs (rnd (val x / val y)) < fmaxR -> fin (fdiv x y) /\ val (fdiv x y) = rnd (val x / val y).
Proof. intros X Y B. pose proof (Bdiv_correct 53 1024 _ _ mode_NE x y Y) as C. rewrite Rlt_bool_true in C by exact B. destruct C as (C & D & _). split. unfold fin, fdiv. rewrite D. exact X. exact C. Qed.
Lemma fdiv_fin x y : val y <> 0 -> fin (fdiv x y) -> fin x /\ val (fdiv x y) = rnd (val x / val y) /\ Rabs (rnd (val x / val y)) < fmaxR.
Proof. intros Y H. pose proof (Bdiv_correct 53 1024 _ _ mode_NE x y Y) as C. revert C; case Rlt_bool_spec; intros H0 C.
  - destruct C as (C & D & _). unfold fin, fdiv in H. rewrite D in H. repeat split; auto.
  - apply over_not_fin in C. unfold fin, fdiv in H. rewrite C in H. discriminate. Qed.

(** integers and literals *)
Lemma lit_R m e : Rabs (rnd (IZR m * bpow radix2 e)) < fmaxR -> fin (lit m e) /\ val (lit m e) = rnd (IZR m * bpow radix2 e).
Proof. intros B. pose proof (binary_normalize_correct 53 1024 p53 pe53 mode_NE m e false) as C. cbv zeta in C. rewrite Rlt_bool_true in C by exact B. split; apply C. Qed.
Lemma int_fmt z : (Z.abs z <= 2 ^ 53)%Z -> fmt (IZR z).
Proof. intros H. destruct (Z.eq_dec (Z.abs z) (2 ^ 53)) as [E | E].
  - assert (fmt (bpow radix2 53)) as G by (apply generic_format_bpow; cbn; discriminate).
    destruct (Z.abs_spec z) as [[_ A] | [_ A]]; rewrite A in E; [ rewrite E | replace z with (- 2 ^ 53)%Z by lia; rewrite opp_IZR; apply fmt_opp]; exact G.
  - apply generic_format_FLT. exists (Float radix2 z 0). unfold F2R. simpl. ring. simpl Fnum. change (radix2 ^ 53)%Z with (2 ^ 53)%Z. lia. simpl. lia. Qed.
Lemma int_lit z : (Z.abs z <= 2 ^ 53)%Z -> fin (lit z 0) /\ val (lit z 0) = IZR z.
Proof. intros H. pose proof (rnd_id _ (int_fmt z H)) as E. change (bpow radix2 0) with 1 in *.
  destruct (lit_R z 0) as [A B].
  - change (bpow radix2 0) with 1. rewrite Rmult_1_r, E, <- abs_IZR. apply Rle_lt_trans with (IZR (2 ^ 53)). apply IZR_le, H. change (IZR (2 ^ 53)) with (bpow radix2 53). apply bpow_lt. reflexivity.
  - split. exact A. rewrite B. change (bpow radix2 0) with 1. rewrite Rmult_1_r. exact E. Qed.
Definition small (n : nat) : Prop := (Z.of_nat n <= 2 ^ 53)%Z.
Lemma usize_R n : small n -> fin (of_usize n) /\ val (of_usize n) = INR n.
Proof. intros H. rewrite INR_IZR_INZ. apply int_lit. rewrite Z.abs_eq. exact H. lia. Qed.
Lemma one_R : fin one /\ val one = 1. Proof. apply int_lit. cbn. discriminate. Qed.
Lemma two_R : fin two /\ val two = 2. Proof. apply int_lit. cbn. discriminate. Qed.

(** comparisons *)
Lemma fcmp_R x y : fin x -> fin y -> fcmp x y = Some (Rcompare (val x) (val y)). Proof. apply Bcompare_correct. Qed.
Lemma fle_R x y : fin x -> fin y -> (fle x y = true <-> val x <= val y).
Proof. intros X Y. unfold fle. rewrite (Bleb_correct 53 1024 _ _ X Y). case Rle_bool_spec; split; intros; auto; try discriminate; unfold val in *; lra. Qed.
Lemma flt_R x y : fin x -> fin y -> (flt x y = true <-> val x < val y).
Proof. intros X Y. unfold flt. rewrite (Bltb_correct 53 1024 _ _ X Y). case Rlt_bool_spec; split; intros; auto; try discriminate; unfold val in *; lra. Qed.
Lemma feq_R x y : fin x -> fin y -> (feq x y = true <-> val x = val y).
Proof. intros X Y. unfold feq. rewrite (Beqb_correct 53 1024 _ _ X Y). case Req_bool_spec; split; intros; auto; try discriminate; unfold val in *; lra. Qed.

(** a rounding between two numbers does not overflow *)
Lemma between_lt a b z : Rabs a < fmaxR -> Rabs b < fmaxR -> a <= z <= b -> Rabs z < fmaxR.
Proof. intros A B [P Q]. apply Rabs_def2 in A, B. apply Rabs_def1; lra. Qed.
