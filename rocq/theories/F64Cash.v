(** Property C111: cash flows, legs, quotes, money and conversions in binary64. *)
From Coq Require Import ZArith Reals String List Bool Lia Lra Psatz Permutation.
From Flocq Require Import Core BinarySingleNaN.
From Flocq.Prop Require Plus_error.
From Verif Require Import Res DateModel F64Model F64RootModel F64Base F64Order F64Root F64Sum F64Quad F64Day F64FdGrid F64CashModel.
From Verif Require AcctModel.
Import ListNotations.
Local Open Scope string_scope.
Local Open Scope R_scope.

(** ** Bit-for-bit algebra *)
Lemma fadd_comm x y : fadd x y = fadd y x.
Proof.
  destruct x as [[]|[]| |[] mx ex Hx], y as [[]|[]| |[] my ey Hy]; try reflexivity;
    unfold fadd, Bplus; rewrite (Z.min_comm ey ex); f_equal; apply Z.add_comm.
Qed.
Lemma fneg_fneg x : fneg (fneg x) = x. Proof. apply Bopp_involutive. Qed.
Lemma fsub_fadd x y : fsub x y = fadd x (fneg y).
Proof.
  destruct x as [[]|[]| |[] mx ex Hx], y as [[]|[]| |[] my ey Hy]; try reflexivity; unfold fsub, fadd, fneg, Bminus, Bplus, Bopp; f_equal.
Qed.
Lemma date_eqb_refl d : date_eqb d d = true. Proof. unfold date_eqb. rewrite !Z.eqb_refl. reflexivity. Qed.
Lemma date_eqb_sym d e : date_eqb d e = date_eqb e d. Proof. unfold date_eqb. rewrite (Z.eqb_sym (year d)), (Z.eqb_sym (month d)), (Z.eqb_sym (day d)). reflexivity. Qed.
Lemma date_eqb_eq d e : date_eqb d e = true -> d = e.
Proof. unfold date_eqb. intros H. apply andb_prop in H as [H C]. apply andb_prop in H as [A B]. apply Z.eqb_eq in A, B, C. destruct d, e. cbn in *. congruence. Qed.

(** Adding two cash flows of one day gives the same bits in either order, subtracting is adding the
    negative, negating twice is nothing, and two flows of different days cannot be added at all. *)
Theorem cashflow64_algebra a b :
  cf_add64 a b = cf_add64 b a /\ cf_sub64 a b = cf_add64 a (cf_neg64 b) /\ cf_neg64 (cf_neg64 a) = a /\
  (date64 a = date64 b -> exists c, cf_add64 a b = Ret c /\ date64 c = date64 a /\ amount64 c = fadd (amount64 a) (amount64 b)) /\
  (date64 a <> date64 b -> cf_add64 a b = Panic /\ cf_sub64 a b = Panic).
Proof.
  unfold cf_add64, cf_sub64, cf_neg64. cbn [amount64 date64]. split; [|split; [|split; [|split]]].
  - rewrite (date_eqb_sym (date64 b)). destruct (date_eqb (date64 a) (date64 b)) eqn:E; [|reflexivity]. apply date_eqb_eq in E. cbn. rewrite E, (fadd_comm (amount64 a)). reflexivity.
  - rewrite fsub_fadd. reflexivity.
  - rewrite fneg_fneg. destruct a; reflexivity.
  - intros E. rewrite E, date_eqb_refl. cbn. eexists. split; [reflexivity|]. cbn. auto.
  - intros N. destruct (date_eqb (date64 a) (date64 b)) eqn:E; [|split; reflexivity]. apply date_eqb_eq in E. contradiction.
Qed.
Print Assumptions cashflow64_algebra.

(** ** Values: one rounding per operation *)
Theorem cashflow64_npv c d : fin (cf_npv64 c d) ->
  Rabs (val (cf_npv64 c d) - val (amount64 c) * val d) <= u * Rabs (val (amount64 c) * val d) + eta /\
  fin (cf_npv64 (cf_neg64 c) d) /\ val (cf_npv64 (cf_neg64 c) d) = - val (cf_npv64 c d).
Proof.
  unfold cf_npv64, cf_neg64. cbn [amount64]. intros H. destruct (fmul_fin _ _ H) as (A & B & E & L). split.
  - rewrite E. apply rnd_abs_err.
  - assert (FA : fin (fneg (amount64 c))) by (apply fneg_fin, A). assert (V : val (fneg (amount64 c)) = - val (amount64 c)) by apply fneg_R.
    assert (P : rnd (val (fneg (amount64 c)) * val d) = - rnd (val (amount64 c) * val d)) by (rewrite V, <- rnd_opp; f_equal; ring).
    destruct (fmul_R (fneg (amount64 c)) d FA B) as [F1 V1]; [rewrite P, Rabs_Ropp; exact L|]. split; [exact F1|]. rewrite V1, P, E. reflexivity.
Qed.
Print Assumptions cashflow64_npv.

(** Scaling a cash flow: one rounding, same day; scaling up and back down is within 8 units of 2^-53. *)
Theorem cashflow64_scale c k : date64 (cf_mul64 c k) = date64 c /\ date64 (cf_div64 c k) = date64 c /\
  (fin (amount64 (cf_mul64 c k)) -> Rabs (val (amount64 (cf_mul64 c k)) - val (amount64 c) * val k) <= u * Rabs (val (amount64 c) * val k) + eta) /\
  (val k <> 0 -> fin (amount64 (cf_div64 c k)) -> Rabs (val (amount64 (cf_div64 c k)) - val (amount64 c) / val k) <= u * Rabs (val (amount64 c) / val k) + eta) /\
  (fin (amount64 c) -> bpow radix2 (-300) <= val (amount64 c) <= bpow radix2 300 -> fin k -> bpow radix2 (-100) <= val k <= bpow radix2 100 ->
   Rabs (val (amount64 (cf_div64 (cf_mul64 c k) k)) - val (amount64 c)) <= 8 * u * val (amount64 c)).
Proof.
  unfold cf_mul64, cf_div64. cbn [amount64 date64]. split; [reflexivity|]. split; [reflexivity|]. split; [|split].
  - intros H. destruct (fmul_fin _ _ H) as (_ & _ & E & _). rewrite E. apply rnd_abs_err.
  - intros N H. destruct (fdiv_fin _ _ N H) as (_ & E & _). rewrite E. apply rnd_abs_err.
  - intros Fm Bm Fr Br. pose proof (ap_exact _ 300 Fm Bm) as PA. pose proof (ap_exact k 100 Fr Br) as PR.
    pose proof (ap_mul 0 300 _ _ 0 100 _ _ PA PR ltac:(apply few_small; lia) ltac:(lia)) as P2. pose proof (ap_div 1 400 _ _ 0 100 _ _ P2 PR ltac:(apply few_small; lia) ltac:(lia)) as P4.
    pose proof (bpow_gt_0 radix2 (-100)) as Q. replace (val (amount64 c) * val k / val k) with (val (amount64 c)) in P4 by (field; lra).
    destruct P4 as (_ & W & _). destruct (within_abs _ _ _ W ltac:(apply few_small; lia)) as [D _]. eapply Rle_trans; [exact D|]. cbn. apply Req_le. ring.
Qed.
Print Assumptions cashflow64_scale.

(** ** A leg *)
Definition due (l : list cf64) (d : f64) : R := fold_right Rplus 0 (map (fun c => val (amount64 c) * val d) l).
Definition gross (l : list cf64) (d : f64) : R := fold_right Rplus 0 (map (fun c => Rabs (val (amount64 c) * val d)) l).
Lemma gross_pos l d : 0 <= gross l d.
Proof. unfold gross. induction l; cbn; [lra|]. pose proof (Rabs_pos (val (amount64 a) * val d)). lra. Qed.
Lemma leg_terms l d : Forall fin (map (fun c => cf_npv64 c d) l) ->
  Rabs (exact (map (fun c => cf_npv64 c d) l) - due l d) <= u * gross l d + INR (length l) * eta /\
  mag (map (fun c => cf_npv64 c d) l) <= (1 + u) * gross l d + INR (length l) * eta.
Proof.
  unfold exact, mag, due, gross. induction l as [|c l IH]; intros H.
  - cbn. rewrite Rminus_0_r, Rabs_R0. lra.
  - inversion H; subst. destruct (IH H3) as [I1 I2]. destruct (cashflow64_npv c d H2) as [E _]. cbn [map fold_right length] in *. rewrite S_INR. clear IH H3 H H2.
    set (S1 := fold_right Rplus 0 (map val (map (fun c0 => cf_npv64 c0 d) l))) in *. set (S2 := fold_right Rplus 0 (map (fun c0 => val (amount64 c0) * val d) l)) in *.
    set (S3 := fold_right Rplus 0 (map (fun c0 => Rabs (val (amount64 c0) * val d)) l)) in *. set (S4 := fold_right Rplus 0 (map (fun x => Rabs (val x)) (map (fun c0 => cf_npv64 c0 d) l))) in *.
    set (x := val (cf_npv64 c d)) in *. set (y := val (amount64 c) * val d) in *. split.
    + replace (x + S1 - (y + S2)) with (x - y + (S1 - S2)) by ring. eapply Rle_trans; [apply Rabs_triang|]. lra.
    + assert (Rabs x <= Rabs y + Rabs (x - y)) by (replace x with (y + (x - y)) at 1 by ring; apply Rabs_triang). lra.
Qed.

(** The value of a leg is the sum of its discounted amounts, to within one rounding per product and one
    per addition.  Adding a cash flow at the end adds its value, bit for bit. *)
Theorem leg64_accurate neg l d : fin (leg_npv64 neg l d) ->
  Rabs (val (leg_npv64 neg l d) - due l d) <= ((1 + u) ^ length l - 1) * gross l d + (1 + u) ^ length l * INR (length l) * eta.
Proof.
  unfold leg_npv64. intros H. destruct (sum_error _ _ H) as [Fs E]. destruct (leg_terms l d Fs) as [T1 T2]. rewrite map_length in E. pose proof u_pos as U. pose proof eta_pos as N.
  destruct l as [|c l]. { cbn in *. unfold due, gross in *. cbn in *. rewrite Rminus_0_r in *. lra. }
  set (n := length l). change (length (c :: l)) with (S n) in *. rewrite Nat.sub_succ, Nat.sub_0_r in E. cbn [pow]. pose proof (pow_R1_Rle (1 + u) n ltac:(lra)) as P. set (p := (1 + u) ^ n) in *.
  pose proof (gross_pos (c :: l) d) as G. set (g := gross (c :: l) d) in *. pose proof (pos_INR (S n)) as K. set (k := INR (S n)) in *. pose proof (mag_pos (map (fun c0 => cf_npv64 c0 d) (c :: l))) as M.
  set (m := mag (map (fun c0 => cf_npv64 c0 d) (c :: l))) in *. set (s := val (fsum neg (map (fun c0 => cf_npv64 c0 d) (c :: l)))) in *. set (e := exact (map (fun c0 => cf_npv64 c0 d) (c :: l))) in *.
  replace (s - due (c :: l) d) with (s - e + (e - due (c :: l) d)) by ring. eapply Rle_trans; [apply Rabs_triang|].
  assert (A : (p - 1) * m <= (p - 1) * ((1 + u) * g + k * eta)) by (apply Rmult_le_compat_l; lra). assert (0 <= k * eta) by nra. assert (0 <= u * (p * (k * eta))) by (apply Rmult_le_pos; [lra|]; apply Rmult_le_pos; lra).
  replace (((1 + u) * p - 1) * g + (1 + u) * p * k * eta) with ((p - 1) * ((1 + u) * g + k * eta) + (u * g + k * eta) + u * (p * (k * eta))) by ring. lra.
Qed.
Print Assumptions leg64_accurate.

Theorem leg64_append neg l c d : leg_npv64 neg (leg_add64 l c) d = fadd (leg_npv64 neg l d) (cf_npv64 c d).
Proof. unfold leg_npv64, leg_add64, fsum. rewrite map_app, fold_left_app. reflexivity. Qed.
Print Assumptions leg64_append.

Lemma perm_fold {A} (f : A -> R) l l' : Permutation l l' -> fold_right Rplus 0 (map f l) = fold_right Rplus 0 (map f l').
Proof. induction 1; cbn; lra. Qed.
Theorem leg64_order neg neg' l l' d : Permutation l l' -> fin (leg_npv64 neg l d) -> fin (leg_npv64 neg' l' d) ->
  Rabs (val (leg_npv64 neg l d) - val (leg_npv64 neg' l' d)) <= 2 * (((1 + u) ^ length l - 1) * gross l d + (1 + u) ^ length l * INR (length l) * eta).
Proof.
  intros P A B. pose proof (leg64_accurate _ _ _ A) as E1. pose proof (leg64_accurate _ _ _ B) as E2. rewrite <- (Permutation_length P) in E2.
  unfold due, gross in *. rewrite <- (perm_fold (fun c => val (amount64 c) * val d) _ _ P), <- (perm_fold (fun c => Rabs (val (amount64 c) * val d)) _ _ P) in E2.
  set (X := fold_right Rplus 0 (map (fun c => val (amount64 c) * val d) l)) in *. replace (val (leg_npv64 neg l d) - val (leg_npv64 neg' l' d)) with (val (leg_npv64 neg l d) - X + - (val (leg_npv64 neg' l' d) - X)) by ring.
  eapply Rle_trans; [apply Rabs_triang|]. rewrite Rabs_Ropp. lra.
Qed.
Print Assumptions leg64_order.

(** Larger amounts never give a smaller value. *)
Theorem leg64_monotone neg l l' d : 0 <= val d -> Forall2 (fun c c' => val (amount64 c) <= val (amount64 c')) l l' ->
  fin (leg_npv64 neg l d) -> fin (leg_npv64 neg l' d) -> val (leg_npv64 neg l d) <= val (leg_npv64 neg l' d).
Proof.
  unfold leg_npv64. intros D H A B. destruct (sum_error _ _ A) as [FA _]. destruct (sum_error _ _ B) as [FB _]. apply sum_monotone; try assumption. clear A B.
  induction H; cbn in *; constructor; inversion FA; inversion FB; subst; [|apply IHForall2; assumption].
  unfold cf_npv64 in *. destruct (fmul_fin _ _ H3) as (_ & _ & E1 & _). destruct (fmul_fin _ _ H7) as (_ & _ & E2 & _). rewrite E1, E2. apply rnd_le. nra.
Qed.
Print Assumptions leg64_monotone.

(** Splitting a leg in two does change its value. *)
Theorem leg64_split_refuted : exists l l' d, forall neg, fin (leg_npv64 neg (l ++ l') d) /\
  flt (leg_npv64 neg (l ++ l') d) (fadd (leg_npv64 neg l d) (leg_npv64 neg l' d)) = true.
Proof.
  pose (day := Date 2024 1 1). exists [Cf64 one day], [Cf64 (lit 1 (-53)) day; Cf64 (lit 1 (-53)) day], one. intros []; split; vm_compute; reflexivity.
Qed.
Print Assumptions leg64_split_refuted.

(** ** Quotes *)
Lemma diff_zero x y : feq (fsub x y) zero = true -> fin x /\ fin y /\ val x = val y.
Proof.
  intros H. assert (FD : fin (fsub x y)). { destruct (fsub x y) as [?|[]| |? ? ? ?]; try reflexivity; discriminate H. }
  destruct (fsub_fin _ _ FD) as (A & B & E & _). split; [exact A|]. split; [exact B|]. apply (feq_R _ zero FD eq_refl) in H. change (val zero) with 0 in H. rewrite E in H.
  destruct (Req_dec (val x) (val y)) as [Q|Q]; [exact Q|exfalso]. pose proof (val_fmt x) as X. pose proof (val_fmt y) as Y.
  apply (Plus_error.round_plus_neq_0 radix2 (FLT_exp (-1074) 53) ZnearestE (val x) (- val y)); [exact X|apply generic_format_opp; exact Y|lra|exact H].
Qed.
Definition isnan (x : f64) : Prop := x = nan.
Lemma feq_self x : x <> nan -> feq x x = true.
Proof. intros N. destruct x as [[]|[]| |s m e H]; try reflexivity; [contradiction|]. apply (feq_R (B754_finite s m e H) (B754_finite s m e H) eq_refl eq_refl). reflexivity. Qed.

(** Setting a quote that has a value to a new value leaves a quote equal to the new one, whatever the two
    are: thanks to gradual underflow the difference of two distinct numbers is never zero. *)
Theorem quote64_set old new : exists v, fst (quote_set64 (Some old) (Some new)) = Some v /\ (new = nan -> v = nan) /\ (new <> nan -> feq v new = true) /\
  (fin (snd (quote_set64 (Some old) (Some new))) -> val (snd (quote_set64 (Some old) (Some new))) = rnd (val new - val old)).
Proof.
  unfold quote_set64. cbn [fst snd]. destruct (feq (fsub new old) zero) eqn:E; cbn [negb].
  - destruct (diff_zero _ _ E) as (A & B & V). exists old. split; [reflexivity|]. split; [intros ->; discriminate A|]. split; [intros _; apply (feq_R _ _ B A); symmetry; exact V|]. intros FD. apply (fsub_fin _ _ FD).
  - exists new. split; [reflexivity|]. split; [trivial|]. split; [apply feq_self|]. intros FD. apply (fsub_fin _ _ FD).
Qed.
Print Assumptions quote64_set.

(** A quote without a value takes any value but zero; once it has one, [set_value] cannot take it away. *)
Theorem quote64_empty new : fst (quote_set64 None (Some new)) = (if feq new zero then None else Some new) /\ snd (quote_set64 None (Some new)) = new.
Proof. unfold quote_set64. cbn [fst snd]. destruct (feq new zero); split; reflexivity. Qed.
Print Assumptions quote64_empty.
Theorem quote64_keep q : quote_set64 q None = (q, zero).
Proof. destruct q; reflexivity. Qed.
Print Assumptions quote64_keep.
(** An empty quote set to 0.0 stays empty, and the change between two finite quotes can be infinite. *)
Theorem quote64_refuted : fst (quote_set64 None (Some zero)) = None /\
  exists old new, fin old /\ fin new /\ ~ fin (snd (quote_set64 (Some old) (Some new))).
Proof.
  split; [reflexivity|]. exists (lit (-1) 1023), (lit 1 1023). split; [reflexivity|]. split; [reflexivity|]. vm_compute. discriminate.
Qed.
Print Assumptions quote64_refuted.

(** ** Money *)
Lemma iso_refl i : AcctModel.iso_eqb i i = true.
Proof. unfold AcctModel.iso_eqb. rewrite !String.eqb_refl. reflexivity. Qed.
Lemma cur_refl c : AcctModel.cur_eqb c c = true.
Proof. unfold AcctModel.cur_eqb. rewrite !String.eqb_refl, iso_refl, !N.eqb_refl. reflexivity. Qed.
Lemma feq_fcmp x y : feq x y = true <-> fcmp x y = Some Eq.
Proof. unfold feq, fcmp, Beqb, Bcompare, SpecFloat.SFeqb. destruct (SpecFloat.SFcompare (B2SF x) (B2SF y)) as [[]|]; split; congruence. Qed.

(** Money equals itself exactly when its amount is a number, although the type claims [Eq]; within one
    currency [==] and [partial_cmp] agree, and no comparison is made across currencies. *)
Theorem money64_compare a b :
  (money_eqb64 a a = true <-> sum64 a <> nan) /\
  (cur64 a = cur64 b -> (money_eqb64 a b = true <-> money_cmp64 a b = Some Eq) /\ (money_cmp64 a b = None <-> sum64 a = nan \/ sum64 b = nan)) /\
  (cur64 a = cur64 b -> fin (sum64 a) -> fin (sum64 b) -> money_cmp64 a b = Some (Rcompare (val (sum64 a)) (val (sum64 b)))) /\
  (AcctModel.cur_code (cur64 a) <> AcctModel.cur_code (cur64 b) -> money_eqb64 a b = false) /\
  (AcctModel.cur_eqb (cur64 a) (cur64 b) = false -> money_cmp64 a b = None).
Proof.
  unfold money_eqb64, money_cmp64. split; [|split; [|split; [|split]]].
  - rewrite iso_refl. cbn. split; [|apply feq_self]. intros H E. rewrite E in H. discriminate H.
  - intros E. rewrite E, iso_refl, cur_refl. cbn [andb]. split; [apply feq_fcmp|].
    destruct (sum64 a) as [[]|[]| |? ? ? ?], (sum64 b) as [[]|[]| |? ? ? ?]; cbn; split; try (intros [Q|Q]; discriminate Q); try discriminate; auto; try reflexivity;
      repeat match goal with |- context [match ?x with _ => _ end] => destruct x end; try discriminate; intros [Q|Q]; discriminate Q.
  - intros E FA FB. rewrite E, cur_refl. apply fcmp_R; assumption.
  - intros N. replace (AcctModel.iso_eqb (AcctModel.cur_code (cur64 a)) (AcctModel.cur_code (cur64 b))) with false; [reflexivity|]. symmetry. apply not_true_is_false. intros H. apply N.
    unfold AcctModel.iso_eqb in H. apply andb_prop in H as [H1 H2]. apply String.eqb_eq in H1, H2. destruct (AcctModel.cur_code (cur64 a)), (AcctModel.cur_code (cur64 b)). cbn in *. congruence.
  - intros ->. reflexivity.
Qed.
Print Assumptions money64_compare.
Theorem money64_reflexive_refuted : exists m, money_eqb64 m m = false /\ money_cmp64 m m = None.
Proof. exists (Money64 (AcctModel.Currency "A" "A" (AcctModel.Iso4217 "A" "1") 2 100) nan). split; vm_compute; reflexivity. Qed.
Print Assumptions money64_reflexive_refuted.

(** Arithmetic within a currency: each operator is one rounding of the exact result, in the same currency;
    across currencies every operator panics. *)
Theorem money64_ops a b :
  (cur64 a = cur64 b -> forall op exactly, In (op, exactly) [(fadd, Rplus); (fsub, Rminus); (fmul, Rmult)] ->
     exists c, money_op64 op a b = Ret c /\ cur64 c = cur64 a /\ (fin (sum64 c) -> val (sum64 c) = rnd (exactly (val (sum64 a)) (val (sum64 b))))) /\
  (cur64 a = cur64 b -> exists c, money_op64 fdiv a b = Ret c /\ cur64 c = cur64 a /\ (val (sum64 b) <> 0 -> fin (sum64 c) -> val (sum64 c) = rnd (val (sum64 a) / val (sum64 b)))) /\
  (AcctModel.cur_eqb (cur64 a) (cur64 b) = false -> forall op, money_op64 op a b = Panic).
Proof.
  unfold money_op64. split; [|split].
  - intros E op ex I. rewrite E, cur_refl. eexists. split; [reflexivity|]. cbn [cur64 sum64]. split; [reflexivity|]. intros H.
    destruct I as [I|[I|[I|[]]]]; injection I as <- <-; [apply fadd_fin in H|apply fsub_fin in H|apply fmul_fin in H]; apply H.
  - intros E. rewrite E, cur_refl. eexists. split; [reflexivity|]. cbn [cur64 sum64]. split; [reflexivity|]. intros N H. apply (fdiv_fin _ _ N H).
  - intros -> op. reflexivity.
Qed.
Print Assumptions money64_ops.

(** The sign of a difference never lies: a - b is zero exactly when the amounts are equal, and negative
    exactly when a is the smaller. *)
Theorem money64_difference a b c : money_op64 fsub a b = Ret c -> fin (sum64 a) -> fin (sum64 b) ->
  (feq (sum64 c) zero = true <-> feq (sum64 a) (sum64 b) = true) /\ (fin (sum64 c) -> val (sum64 c) < 0 <-> val (sum64 a) < val (sum64 b)).
Proof.
  unfold money_op64. destruct (AcctModel.cur_eqb (cur64 a) (cur64 b)); [|discriminate]. intros E FA FB. injection E as <-. cbn [sum64]. split.
  - split; intros H.
    + apply diff_zero in H. apply (feq_R _ _ FA FB), H.
    + apply (feq_R _ _ FA FB) in H. assert (Z0 : rnd (val (sum64 a) - val (sum64 b)) = 0) by (rewrite H, Rminus_diag_eq by reflexivity; apply rnd_0).
      destruct (fsub_R _ _ FA FB) as [FD V]; [rewrite Z0, Rabs_R0; unfold fmaxR; apply bpow_gt_0|]. apply (feq_R _ zero FD eq_refl). rewrite V. exact Z0.
  - intros FD. destruct (fsub_fin _ _ FD) as (_ & _ & V & _). split; intros H.
    + destruct (Rlt_le_dec (val (sum64 a)) (val (sum64 b))) as [L|L]; [exact L|exfalso]. assert (0 <= rnd (val (sum64 a) - val (sum64 b))) by (rewrite <- rnd_0; apply rnd_le; lra). lra.
    + assert (L : rnd (val (sum64 a) - val (sum64 b)) <= 0) by (rewrite <- rnd_0; apply rnd_le; lra). rewrite V.
      destruct (Req_dec (rnd (val (sum64 a) - val (sum64 b))) 0) as [Q|Q]; [exfalso|lra].
      assert (Z0 : feq (fsub (sum64 a) (sum64 b)) zero = true) by (apply (feq_R _ zero FD eq_refl); rewrite V; exact Q). apply diff_zero in Z0. lra.
Qed.
Print Assumptions money64_difference.

(** ** Conversion *)
(** There and back again at the rate and its reciprocal, over any sensible range, costs twelve units of
    2^-53 relative to the amount, and lands in the currency one started from. *)
Theorem convert64_round_trip m A B r : cur64 m = A -> fin (sum64 m) -> bpow radix2 (-300) <= val (sum64 m) <= bpow radix2 300 ->
  fin r -> bpow radix2 (-100) <= val r <= bpow radix2 100 ->
  exists m1 m2, convert64 (Rate64 A B r) m = Ret m1 /\ convert64 (Rate64 B A (fdiv one r)) m1 = Ret m2 /\ cur64 m1 = B /\ cur64 m2 = A /\
    fin (sum64 m1) /\ fin (sum64 m2) /\ val (sum64 m1) = rnd (val (sum64 m) * val r) /\ Rabs (val (sum64 m2) - val (sum64 m)) <= 12 * u * val (sum64 m).
Proof.
  intros C Fm Bm Fr Br. unfold convert64. cbn [from64 to64 quote64]. rewrite C, cur_refl. eexists. eexists. split; [reflexivity|]. cbn [cur64 sum64]. rewrite cur_refl. split; [reflexivity|]. cbn [cur64 sum64].
  pose proof (ap_exact (sum64 m) 300 Fm Bm) as PA. pose proof (ap_exact r 100 Fr Br) as PR. destruct one_R as [F1 V1]. assert (P1 : ap 0 0 one (val one)) by (apply ap_exact; [exact F1|]; rewrite V1; cbn; lra).
  pose proof (ap_mul 0 300 _ _ 0 100 _ _ PA PR ltac:(apply few_small; lia) ltac:(lia)) as P2. pose proof (ap_div 0 0 _ _ 0 100 _ _ P1 PR ltac:(apply few_small; lia) ltac:(lia)) as P3.
  pose proof (ap_mul 1 400 _ _ 1 100 _ _ P2 P3 ltac:(apply few_small; lia) ltac:(lia)) as P4. pose proof (bpow_gt_0 radix2 (-100)) as Q. rewrite V1 in P4. replace (val (sum64 m) * val r * (1 / val r)) with (val (sum64 m)) in P4 by (field; lra).
  split; [reflexivity|]. split; [reflexivity|]. split; [apply P2|]. split; [apply P4|]. split; [apply fmul_fin, P2|].
  destruct P4 as (_ & W & _). destruct (within_abs _ _ _ W ltac:(apply few_small; lia)) as [D _]. eapply Rle_trans; [exact D|]. cbn. pose proof (bpow_gt_0 radix2 (-300)). pose proof u_pos. apply Req_le. ring.
Qed.
Print Assumptions convert64_round_trip.

(** It does not come back exactly: one unit at 49 and at 1/49. *)
Theorem convert64_refuted : exists A B m r m1 m2, convert64 (Rate64 A B r) m = Ret m1 /\ convert64 (Rate64 B A (fdiv one r)) m1 = Ret m2 /\
  fin (sum64 m2) /\ flt (sum64 m2) (sum64 m) = true.
Proof.
  pose (A := AcctModel.Currency "A" "A" (AcctModel.Iso4217 "A" "1") 2 100). pose (B := AcctModel.Currency "B" "B" (AcctModel.Iso4217 "B" "2") 2 100).
  exists A, B, (Money64 A one), (lit 49 0). eexists. eexists. split; [reflexivity|]. split; [reflexivity|]. split; vm_compute; reflexivity.
Qed.
Print Assumptions convert64_refuted.

(** ** Cases *)
Definition day64 : date := Date 2024 6 30.
Definition leg_case : list cf64 := [Cf64 (lit 100 0) day64; Cf64 (lit 3 (-1)) day64; Cf64 (lit (-7) 0) day64].
Example leg64_case : fin (leg_npv64 true leg_case half64) /\ feq (leg_npv64 true leg_case half64) (lit 189 (-2)) = true /\ 0 <= val half64.
Proof. split; [vm_compute; reflexivity|]. split; [vm_compute; reflexivity|]. rewrite (proj2 half64_R). lra. Qed.
Example cash64_case : (exists c, cf_add64 (Cf64 (lit 3 0) day64) (Cf64 (lit 4 0) day64) = Ret c /\ feq (amount64 c) (lit 7 0) = true) /\
  cf_add64 (Cf64 one day64) (Cf64 one (Date 2024 7 1)) = Panic.
Proof. split; [eexists; split; [reflexivity|vm_compute; reflexivity]|reflexivity]. Qed.
Example quote64_case : match fst (quote_set64 (Some (lit 10 0)) (Some (lit 15 0))) with Some v => feq v (lit 15 0) | None => false end = true /\
  feq (snd (quote_set64 (Some (lit 10 0)) (Some (lit 15 0)))) (lit 5 0) = true.
Proof. split; vm_compute; reflexivity. Qed.
Example convert64_case : fin (lit 100 0) /\ bpow radix2 (-300) <= val (lit 100 0) <= bpow radix2 300 /\ fin (lit 3 (-2)) /\ bpow radix2 (-100) <= val (lit 3 (-2)) <= bpow radix2 100.
Proof.
  destruct (int_lit 100 ltac:(cbn; lia)) as [F V]. split; [exact F|]. rewrite V. pose proof (bpow_le radix2 (-300) 0 ltac:(lia)) as L1. pose proof (bpow_le radix2 7 300 ltac:(lia)) as L2. change (bpow radix2 0) with 1 in L1. change (bpow radix2 7) with 128 in L2. split; [lra|].
  split; [reflexivity|]. replace (val (lit 3 (-2))) with (3 * / 4) by (cbv; lra). pose proof (bpow_le radix2 (-100) (-1) ltac:(lia)) as L3. pose proof (bpow_le radix2 0 100 ltac:(lia)) as L4. change (bpow radix2 (-1)) with (/ 2) in L3. change (bpow radix2 0) with 1 in L4. lra.
Qed.
Example money64_case : exists c, money_op64 fsub (Money64 (AcctModel.Currency "A" "A" (AcctModel.Iso4217 "A" "1") 2 100) (lit 5 0)) (Money64 (AcctModel.Currency "A" "A" (AcctModel.Iso4217 "A" "1") 2 100) (lit 7 0)) = Ret c /\
  feq (sum64 c) (lit (-2) 0) = true.
Proof. eexists. split; [reflexivity|vm_compute; reflexivity]. Qed.
