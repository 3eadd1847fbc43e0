(** What each operator of overload.rs records in binary64: a correctly rounded value and partial
    derivatives within two roundings of the derivatives. *)
From Coq Require Import ZArith Reals Lra Lia List Bool Psatz.
From Flocq Require Import Core.Core IEEE754.BinarySingleNaN Relative.
From Coquelicot Require Import Coquelicot.
From Verif Require Import Res MatLib F64Model F64Base F64RootModel F64Root F64AdModel F64Ad.
Import ListNotations.
Open Scope R_scope.

(** the derivative that the newest vertex passes to vertex [i] *)
Definition slope (r : tape64 * var64) (i : nat) : R :=
  match nth_error (fst r) (findex64 (snd r)) with
  | Some v => (if Nat.eqb (fq0 v) i then val (fp0 v) else 0) + (if Nat.eqb (fq1 v) i then val (fp1 v) else 0)
  | None => 0
  end.
Lemma slope_push g p q a b v i : slope (push64 g p q a b v) i = (if Nat.eqb a i then val p else 0) + (if Nat.eqb b i then val q else 0).
Proof. unfold slope, push64. cbn [fst snd findex64]. rewrite nth_error_app2, Nat.sub_diag by lia. reflexivity. Qed.
(** the operation read as a real function, one argument at a time *)
Definition good (k : nat) (f : R -> R) (a : R) (s : R) : Prop := exists d t : R, is_derive f a d /\ rel k t /\ s = d * (1 + t).
Lemma good_0 f a (d s : R) : is_derive f a d -> s = d -> good 0 f a s.
Proof. intros D ->. exists d, 0. split; [exact D|]. split; [apply rel_0|ring]. Qed.

Lemma rnd_sharp x : bpow radix2 (-1022) <= Rabs x -> exists e, Rabs e <= u / (1 + u) /\ rnd x = x * (1 + e).
Proof.
  intros H. destruct (relative_error_N_FLX'_ex radix2 53 eq_refl (fun z => negb (Z.even z)) x) as (e & E & R). exists e. rewrite u_ro_u in E. split; [exact E|].
  rewrite <- R. apply (round_FLT_FLX radix2 (-1074) 53). exact H.
Qed.
Lemma inv_rel e : Rabs e <= u / (1 + u) -> exists t, rel 1 t /\ / (1 + e) = 1 + t.
Proof.
  intros H. pose proof u_pos as U. assert (B : u / (1 + u) < 1) by (apply Rmult_lt_reg_r with (1 + u); [lra|]; replace (u / (1 + u) * (1 + u)) with u by (field; lra); lra).
  assert (P : 0 < 1 + e). { pose proof (Rabs_le_between e (u / (1 + u))) as [X _]. specialize (X H). lra. }
  exists (- e / (1 + e)). split; [|field; lra]. unfold rel. rewrite pow_1. unfold Rdiv. rewrite Rabs_mult, Rabs_Ropp, Rabs_inv, (Rabs_pos_eq (1 + e)) by lra.
  apply Rmult_le_reg_r with (1 + e); [exact P|]. rewrite Rmult_assoc, Rinv_l, Rmult_1_r by lra.
  assert (Q : (1 + u) * Rabs e <= u). { apply Rmult_le_reg_l with (/ (1 + u)); [apply Rinv_0_lt_compat; lra|]. rewrite <- Rmult_assoc, Rinv_l, Rmult_1_l by lra. lra. }
  pose proof (Rle_abs (- e)) as A. rewrite Rabs_Ropp in A. nra.
Qed.
Lemma val_neg_one : val (fneg one) = -1.
Proof. rewrite fneg_R, (proj2 one_R). ring. Qed.

Section one.
  Context (g : tape64) (x : var64) (Hx : (findex64 x < length g)%nat).
  Notation i := (findex64 x).
  Notation a := (val (fvalue x)).
  Theorem recorded64_exact : forall c,
    good 0 (fun z => z + val c) a (slope (add_vf64 g x c) i) /\ good 0 (fun z => val c + z) a (slope (add_fv64 g c x) i) /\
    good 0 (fun z => z - val c) a (slope (sub_vf64 g x c) i) /\ good 0 (fun z => val c - z) a (slope (sub_fv64 g c x) i) /\
    good 0 (fun z => z * val c) a (slope (mul_vf64 g x c) i) /\ good 0 (fun z => val c * z) a (slope (mul_fv64 g c x) i) /\
    good 0 Ropp a (slope (neg_v64 g x) i).
  Proof.
    intros c. unfold add_fv64, mul_fv64, sub_vf64, neg_v64, add_vf64, mul_vf64, sub_fv64. rewrite !slope_push, !Nat.eqb_refl, !val_neg_one, (proj2 one_R). change (val zero) with 0.
    split; [apply good_0 with 1; [auto_derive; auto; ring|ring]|]. split; [apply good_0 with 1; [auto_derive; auto; ring|ring]|].
    split; [apply good_0 with 1; [auto_derive; auto; ring|ring]|]. split; [apply good_0 with (-1); [auto_derive; auto; ring|ring]|].
    split; [apply good_0 with (val c); [auto_derive; auto; ring|ring]|]. split; [apply good_0 with (val c); [auto_derive; auto; ring|ring]|].
    apply good_0 with (-1); [auto_derive; auto; ring|ring].
  Qed.
  (** the values are the correctly rounded results *)
  Theorem recorded64_values : forall c,
    (fin (fvalue (snd (add_vf64 g x c))) -> val (fvalue (snd (add_vf64 g x c))) = rnd (a + val c)) /\
    (fin (fvalue (snd (add_fv64 g c x))) -> val (fvalue (snd (add_fv64 g c x))) = rnd (val c + a)) /\
    (fin (fvalue (snd (sub_vf64 g x c))) -> val (fvalue (snd (sub_vf64 g x c))) = rnd (a - val c)) /\
    (fin (fvalue (snd (sub_fv64 g c x))) -> val (fvalue (snd (sub_fv64 g c x))) = rnd (val c - a)) /\
    (fin (fvalue (snd (mul_vf64 g x c))) -> val (fvalue (snd (mul_vf64 g x c))) = rnd (a * val c)) /\
    (fin (fvalue (snd (mul_fv64 g c x))) -> val (fvalue (snd (mul_fv64 g c x))) = rnd (val c * a)) /\
    (a <> 0 -> fin (fvalue (snd (recip_v64 g x))) -> val (fvalue (snd (recip_v64 g x))) = rnd (/ a)) /\
    (a <> 0 -> fin (fvalue (snd (div_fv64 g c x))) -> val (fvalue (snd (div_fv64 g c x))) = rnd (val c / a)) /\
    (val c <> 0 -> fin (fvalue (snd (div_vf64 g x c))) -> val (fvalue (snd (div_vf64 g x c))) = rnd (a * rnd (/ val c))) /\
    val (fvalue (snd (neg_v64 g x))) = - a.
  Proof.
    intros c. unfold add_fv64, mul_fv64, sub_vf64, neg_v64, add_vf64, mul_vf64, sub_fv64, recip_v64, div_fv64, div_vf64, unary64, mul_vf64, push64. cbn [snd fvalue].
    split; [intros H; apply fadd_fin in H; tauto|]. split; [intros H; apply fadd_fin in H; rewrite Rplus_comm; tauto|].
    split; [intros H; apply fadd_fin in H; rewrite fneg_R in H; tauto|]. split; [intros H; apply fsub_fin in H; tauto|].
    split; [intros H; apply fmul_fin in H; tauto|]. split; [intros H; apply fmul_fin in H; rewrite Rmult_comm; tauto|].
    split; [intros N H; apply fdiv_fin in H; [|exact N]; destruct H as (_ & -> & _); rewrite (proj2 one_R); f_equal; unfold Rdiv; ring|].
    split; [intros N H; apply fdiv_fin in H; [|exact N]; tauto|].
    split; [|rewrite fmul_neg_one; apply fneg_R]. intros N H. apply fmul_fin in H. destruct H as (_ & Fd & -> & _). apply fdiv_fin in Fd; [|exact N].
    destruct Fd as (_ & -> & _). rewrite (proj2 one_R). do 3 f_equal. unfold Rdiv. ring.
  Qed.
  Theorem recorded64_over : forall c, fin (fdiv one c) -> val c <> 0 -> safe (/ val c) -> good 1 (fun z => z / val c) a (slope (div_vf64 g x c) i).
  Proof.
    intros c F N S. unfold div_vf64, mul_vf64. rewrite slope_push, !Nat.eqb_refl. change (val zero) with 0. apply fdiv_fin in F; [|exact N]. destruct F as (_ & V & _).
    rewrite (proj2 one_R) in V. replace (1 / val c) with (/ val c) in V by (unfold Rdiv; ring). destruct S as [S|S]; [exfalso; apply (Rinv_neq_0_compat _ N S)|].
    destruct (rnd_rel _ S) as (e & E & Re). exists (/ val c), e. split; [auto_derive; [exact I|field; exact N]|]. split; [apply rel_u, E|]. rewrite V, Re. ring.
  Qed.
  Lemma square_inverse c : let s := fmul (fvalue x) (fvalue x) in let p := fdiv c s in
    a <> 0 -> safe (a * a) -> fin s -> fin p -> safe (val c / val s) -> exists t, rel 2 t /\ val p = val c / (a * a) * (1 + t).
  Proof.
    intros s p N S2 Fs Fp Sp. assert (N2 : a * a <> 0) by (apply Rmult_integral_contrapositive; split; exact N).
    destruct S2 as [S2|S2]; [contradiction|]. apply fmul_fin in Fs. destruct Fs as (_ & _ & Vs & _). fold s in Vs.
    destruct (rnd_sharp _ S2) as (e1 & B1 & E1). destruct (inv_rel e1 B1) as (t1 & T1 & I1).
    assert (Ns : val s <> 0). { rewrite Vs, E1. apply Rmult_integral_contrapositive. split; [exact N2|]. intros Z. rewrite Z in I1. rewrite Rinv_0 in I1. unfold rel in T1. rewrite pow_1 in T1.
      assert (t1 = -1) by lra. subst t1. rewrite Rabs_left in T1 by lra. pose proof u_small. lra. }
    apply fdiv_fin in Fp; [|exact Ns]. destruct Fp as (_ & Vp & _). fold p in Vp.
    assert (EV : val c / val s = val c / (a * a) * (1 + t1)). { rewrite Vs, E1, <- I1. field. split; [intros Z; apply Ns; rewrite Vs, E1, Z; ring|exact N]. }
    destruct Sp as [Sp|Sp].
    - exists t1. split; [apply (rel_mono 1); [lia|exact T1]|]. rewrite Vp, Sp, rnd_0, <- EV. lra.
    - destruct (rnd_rel _ Sp) as (e2 & B2 & E2). exists ((1 + t1) * (1 + e2) - 1). split; [apply (rel_mult 1 1); [exact T1|apply rel_u, B2]|].
      rewrite Vp, E2, EV. ring.
  Qed.
  Theorem recorded64_inverse : forall c, let s := fmul (fvalue x) (fvalue x) in a <> 0 -> safe (a * a) -> fin s ->
    (fin (fdiv one s) -> safe (/ val s) -> good 2 Rinv a (slope (recip_v64 g x) i)) /\
    (fin (fdiv (fneg c) s) -> safe (- val c / val s) -> good 2 (fun z => val c / z) a (slope (div_fv64 g c x) i)).
  Proof.
    intros c s N S2 Fs. split.
    - intros Fp Sp. destruct (square_inverse one N S2 Fs Fp) as (t & T & V); [fold s; rewrite (proj2 one_R); replace (1 / val s) with (/ val s) by (unfold Rdiv; ring); exact Sp|].
      exists (- / (a * a)), t. split; [auto_derive; [exact N|field; exact N]|]. split; [exact T|].
      unfold recip_v64, unary64. rewrite slope_push, Nat.eqb_refl. replace (Nat.eqb (length g) i) with false by (symmetry; apply Nat.eqb_neq; lia).
      rewrite fneg_R, V, (proj2 one_R). field. exact N.
    - intros Fp Sp. destruct (square_inverse (fneg c) N S2 Fs Fp) as (t & T & V); [rewrite fneg_R; exact Sp|].
      exists (- val c / (a * a)), t. split; [auto_derive; [exact N|field; exact N]|]. split; [exact T|].
      unfold div_fv64. rewrite slope_push, !Nat.eqb_refl. change (val zero) with 0. rewrite V, fneg_R. ring.
  Qed.
  Lemma sqrt64 : fin (fvalue x) -> 0 < a -> fin (fsqrt (fvalue x)) /\ val (fsqrt (fvalue x)) = rnd (sqrt a).
  Proof.
    intros F P. destruct (Bsqrt_correct 53 1024 p53 pe53 mode_NE (fvalue x)) as (V & Fi & _). split; [|exact V].
    unfold fin, fsqrt. rewrite Fi. unfold fin in F. unfold val in P. destruct (fvalue x) as [s|s| |s m e b]; try reflexivity; try discriminate.
    destruct s; [|reflexivity]. exfalso. cbn in P. pose proof (F2R_lt_0 radix2 (Float radix2 (Z.neg m) e) ltac:(cbn; lia)). lra.
  Qed.
  Theorem recorded64_sqrt : fin (fvalue x) -> 0 < a -> good 2 sqrt a (slope (sqrt_v64 g x) i) /\ val (fvalue (snd (sqrt_v64 g x))) = rnd (sqrt a).
  Proof.
    intros F P. destruct (sqrt64 F P) as [Fs Vs]. split; [|exact Vs]. set (s := fsqrt (fvalue x)) in *.
    assert (A0 : bpow radix2 (-1074) <= a).
    { pose proof (val_fmt (fvalue x)) as M. destruct (Rle_or_lt (bpow radix2 (-1074)) a) as [L|L]; [exact L|exfalso].
      pose proof (generic_format_ge_bpow radix2 (FLT_exp (-1074) 53) (-1074)) as G.
      assert (Q : bpow radix2 (-1074) <= a); [|lra]. apply G; [intros e; unfold FLT_exp; lia|exact P|exact M]. }
    assert (SL : bpow radix2 (-537) <= sqrt a). { rewrite <- (sqrt_Rsqr (bpow radix2 (-537))) by apply bpow_ge_0. apply sqrt_le_1_alt. unfold Rsqr. rewrite <- bpow_plus. exact A0. }
    assert (SU : sqrt a <= bpow radix2 512). { rewrite <- (sqrt_Rsqr (bpow radix2 512)) by apply bpow_ge_0. apply sqrt_le_1_alt. unfold Rsqr. rewrite <- bpow_plus. pose proof (val_lt (fvalue x)) as L. rewrite Rabs_pos_eq in L by lra. unfold fmaxR in L. change (512 + 512)%Z with 1024%Z. lra. }
    assert (SP : 0 < sqrt a) by (pose proof (bpow_gt_0 radix2 (-537)); lra).
    assert (FB : forall e, (-1074 <= e)%Z -> fmt (bpow radix2 e)) by (intros e He; apply generic_format_bpow; unfold FLT_exp; lia).
    assert (VL : bpow radix2 (-537) <= val s) by (rewrite Vs; apply rnd_ge; [apply FB; lia|exact SL]).
    assert (VU : val s <= bpow radix2 512) by (rewrite Vs; apply rnd_le_fmt; [apply FB; lia|exact SU]).
    destruct (rnd_sharp (sqrt a)) as (e1 & B1 & E1). { rewrite Rabs_pos_eq by lra. apply Rle_trans with (2 := SL). apply bpow_le. lia. }
    destruct (inv_rel e1 B1) as (t1 & T1 & I1).
    assert (VP : 0 < val s) by (pose proof (bpow_gt_0 radix2 (-537)); lra).
    (* twice the root is exact *)
    assert (D2 : rnd (val two * val s) = 2 * val s) by (rewrite (proj2 two_R); apply rnd_id, fmt_2, val_fmt).
    assert (L2 : 2 * val s <= bpow radix2 513) by (change 513%Z with (1 + 512)%Z; rewrite bpow_plus; change (bpow radix2 1) with 2; lra).
    destruct (fmul_R two s (proj1 two_R) Fs) as [Fm Vm].
    { rewrite D2, Rabs_pos_eq by lra. apply Rle_lt_trans with (1 := L2). apply bpow_lt. lia. }
    rewrite D2 in Vm. set (m := fmul two s) in *.
    assert (IL : bpow radix2 (-513) <= / val m). { rewrite Vm. change (bpow radix2 (-513)) with (bpow radix2 (- (513))). rewrite bpow_opp. apply Rinv_le_contravar; [lra|exact L2]. }
    assert (IU : / val m <= bpow radix2 537). { rewrite Vm, <- (Rinv_inv (bpow radix2 537)), <- bpow_opp. apply Rinv_le_contravar; [apply bpow_gt_0|]. change (- (537))%Z with (-537)%Z. lra. }
    assert (Nm : val m <> 0) by (rewrite Vm; lra).
    assert (EV : val one / val m = / val m) by (rewrite (proj2 one_R); unfold Rdiv; ring).
    destruct (fdiv_R one m (proj1 one_R) Nm) as [Fq Vq].
    { rewrite EV. apply Rle_lt_trans with (bpow radix2 537); [|apply bpow_lt; lia]. rewrite Rabs_pos_eq.
      - apply rnd_le_fmt; [apply FB; lia|exact IU].
      - apply rnd_ge; [apply generic_format_0|]. pose proof (bpow_gt_0 radix2 (-513)). lra. }
    rewrite EV in Vq. destruct (rnd_rel (/ val m)) as (e2 & B2 & E2).
    { rewrite Rabs_pos_eq by (pose proof (bpow_gt_0 radix2 (-513)); lra). apply Rle_trans with (2 := IL). apply bpow_le. lia. }
    exists (/ (2 * sqrt a)), ((1 + t1) * (1 + e2) - 1). split; [auto_derive; [exact P|field; lra]|].
    split; [apply (rel_mult 1 1); [exact T1|apply rel_u, B2]|].
    unfold sqrt_v64, unary64. rewrite slope_push, Nat.eqb_refl. replace (Nat.eqb (length g) i) with false by (symmetry; apply Nat.eqb_neq; lia).
    fold s. fold m. rewrite Vq, E2, Vm, Vs, E1, <- I1. field.
    split; [intros Z; rewrite Vs, E1 in VP; rewrite Z in VP; lra|lra].
  Qed.
End one.
Print Assumptions recorded64_exact.
Print Assumptions recorded64_values.
Print Assumptions recorded64_over.
Print Assumptions recorded64_inverse.
Print Assumptions recorded64_sqrt.

(** two variables: a sum or product records the exact derivatives in both; a difference or
    quotient passes through the negation or the reciprocal of the second *)
Theorem recorded64_two : forall g x y, let i := findex64 x in let j := findex64 y in let a := val (fvalue x) in let b := val (fvalue y) in
  i <> j -> (i < length g)%nat -> (j < length g)%nat ->
  (good 0 (fun z => z + b) a (slope (add_vv64 g x y) i) /\ good 0 (fun z => a + z) b (slope (add_vv64 g x y) j) /\
   good 0 (fun z => z * b) a (slope (mul_vv64 g x y) i) /\ good 0 (fun z => a * z) b (slope (mul_vv64 g x y) j)) /\
  (fin (fvalue (snd (add_vv64 g x y))) -> val (fvalue (snd (add_vv64 g x y))) = rnd (a + b)) /\
  (fin (fvalue (snd (mul_vv64 g x y))) -> val (fvalue (snd (mul_vv64 g x y))) = rnd (a * b)) /\
  (let r := sub_vv64 g x y in good 0 (fun z => z - b) a (slope r i) /\ good 0 (fun z => a + z) (- b) (slope r (length g)) /\
     firstn (S (length g)) (fst r) = fst (neg_v64 g y)) /\
  (let r := div_vv64 g x y in let q := snd (recip_v64 g y) in
     good 0 (fun z => z * val (fvalue q)) a (slope r i) /\ good 0 (fun z => a * z) (val (fvalue q)) (slope r (length g)) /\
     firstn (S (length g)) (fst r) = fst (recip_v64 g y)).
Proof.
  intros g x y i j a b N Hi Hj.
  assert (FN : forall (l : tape64) v w, firstn (S (length l)) ((l ++ [v]) ++ [w]) = l ++ [v]).
  { intros l v w. replace (S (length l)) with (length (l ++ [v])) by (rewrite app_length; cbn; lia). rewrite firstn_app, firstn_all, Nat.sub_diag. apply app_nil_r. }
  assert (Z1 : Nat.eqb i j = false) by (apply Nat.eqb_neq, N). assert (Z2 : Nat.eqb j i = false) by (apply Nat.eqb_neq; lia).
  assert (Z3 : Nat.eqb (length g) i = false) by (apply Nat.eqb_neq; lia). assert (Z4 : Nat.eqb i (length g) = false) by (apply Nat.eqb_neq; lia).
  split; [|split; [|split; [|split]]].
  - unfold add_vv64, mul_vv64. rewrite !slope_push. fold i j. rewrite !Nat.eqb_refl, !Z1, !Z2, (proj2 one_R).
    split; [apply good_0 with 1; [auto_derive; auto; ring|ring]|]. split; [apply good_0 with 1; [auto_derive; auto; ring|ring]|].
    split; [apply good_0 with b; [auto_derive; auto; ring|unfold b; ring]|]. apply good_0 with a; [auto_derive; auto; ring|unfold a; ring].
  - intros H. apply fadd_fin in H. tauto.
  - intros H. apply fmul_fin in H. tauto.
  - cbv zeta. change (sub_vv64 g x y) with (push64 (fst (neg_v64 g y)) one one i (length g) (fadd (fvalue x) (fmul (fvalue y) (fneg one)))).
    rewrite !slope_push, !Nat.eqb_refl, Z3, Z4, (proj2 one_R).
    split; [apply good_0 with 1; [auto_derive; auto; ring|ring]|]. split; [apply good_0 with 1; [auto_derive; auto; ring|ring]|]. apply FN.
  - cbv zeta. change (div_vv64 g x y) with (push64 (fst (recip_v64 g y)) (fdiv one (fvalue y)) (fvalue x) i (length g) (fmul (fvalue x) (fdiv one (fvalue y)))).
    rewrite !slope_push, !Nat.eqb_refl, Z3, Z4. change (fvalue (snd (recip_v64 g y))) with (fdiv one (fvalue y)).
    split; [eapply good_0; [auto_derive; auto; reflexivity|ring]|]. split; [eapply good_0; [auto_derive; auto; reflexivity|fold a; ring]|]. apply FN.
Qed.
Print Assumptions recorded64_two.

(** the hypotheses are met: 3 and 7 *)
Example recorded64_meets : let g := fst demo_run in let x := nth 0 (snd demo_run) demo_out in let y := nth 1 (snd demo_run) demo_out in
  let a := val (fvalue x) in let s := fmul (fvalue x) (fvalue x) in
  (findex64 x < length g)%nat /\ (findex64 y < length g)%nat /\ findex64 x <> findex64 y /\ fin (fvalue x) /\ 0 < a /\ a <> 0 /\ safe (a * a) /\ fin s /\
  fin (fdiv one s) /\ safe (/ val s) /\ fin (fdiv (fneg one) s) /\ safe (- val one / val s).
Proof.
  cbv zeta. assert (A : feq (fvalue (nth 0 (snd demo_run) demo_out)) (lit 3 0) = true) by (vm_compute; reflexivity).
  assert (FA : fin (fvalue (nth 0 (snd demo_run) demo_out))) by (vm_compute; reflexivity).
  assert (FS : fin (fmul (fvalue (nth 0 (snd demo_run) demo_out)) (fvalue (nth 0 (snd demo_run) demo_out)))) by (vm_compute; reflexivity).
  destruct (int_lit 3 ltac:(cbn; lia)) as [F3 V3]. destruct (int_lit 9 ltac:(cbn; lia)) as [F9 V9]. apply (feq_R _ _ FA F3) in A. rewrite V3 in A.
  assert (B : feq (fmul (fvalue (nth 0 (snd demo_run) demo_out)) (fvalue (nth 0 (snd demo_run) demo_out))) (lit 9 0) = true) by (vm_compute; reflexivity).
  apply (feq_R _ _ FS F9) in B. rewrite V9 in B. rewrite A, B, (proj2 one_R).
  split; [vm_compute; repeat constructor|]. split; [vm_compute; repeat constructor|]. split; [vm_compute; discriminate|]. split; [exact FA|]. split; [lra|]. split; [lra|].
  split; [right; rewrite Rabs_pos_eq by lra; apply Rle_trans with (bpow radix2 0); [apply bpow_le; lia|cbn; lra]|].
  split; [exact FS|]. split; [vm_compute; reflexivity|].
  split; [right; rewrite Rabs_pos_eq by lra; apply Rle_trans with (bpow radix2 (-4)); [apply bpow_le; lia|cbn; lra]|].
  split; [vm_compute; reflexivity|]. right. replace (- (1) / 9) with (- (/ 9)) by lra. rewrite Rabs_Ropp, Rabs_pos_eq by lra. apply Rle_trans with (bpow radix2 (-4)); [apply bpow_le; lia|cbn; lra].
Qed.
