(** Variables as values: when their order and equality are lawful, what the tests of a variable
    mean, and what rounding a variable does. *)
From Coq Require Import ZArith Reals Lra Lia List Bool Psatz.
From Flocq Require Import Core.Core Core.Digits IEEE754.BinarySingleNaN.
From Verif Require Import Res F64Model F64Base F64Order F64RootModel F64Root F64AdModel F64VarModel.
Import ListNotations.
Open Scope R_scope.

(** ** Order and equality *)
Theorem var_cmp_preorder : forall x y z, num (gv_value x) -> num (gv_value y) -> num (gv_value z) ->
  var_cmp x x = Eq /\ var_cmp y x = CompOpp (var_cmp x y) /\ var_partial_cmp x y = fcmp (gv_value x) (gv_value y) /\
  (var_cmp x y = Lt <-> flt (gv_value x) (gv_value y) = true) /\ (var_cmp x y = Eq <-> feq (gv_value x) (gv_value y) = true) /\
  (var_cmp x y <> Gt -> var_cmp y z <> Gt -> var_cmp x z <> Gt) /\ (var_cmp x y <> Gt -> var_cmp y z <> Gt -> var_cmp x z = Eq -> var_cmp x y = Eq /\ var_cmp y z = Eq).
Proof.
  intros [gx ix a] [gy iy b] [gz iz c] Na Nb Nc. unfold var_partial_cmp, var_cmp, flt, feq, Bltb, Beqb, SpecFloat.SFltb, SpecFloat.SFeqb in *. cbn [gv_value] in *.
  assert (FE : forall p q, num p -> num q -> SpecFloat.SFcompare (B2SF p) (B2SF q) = Some (Rcompare (ext p) (ext q))) by (intros p q P Q; exact (fcmp_ext p q P Q)).
  rewrite !fcmp_ext, !FE by assumption. set (A := ext a). set (B := ext b). set (C := ext c).
  split; [apply Rcompare_Eq; reflexivity|]. split; [apply Rcompare_sym|]. split; [reflexivity|].
  split; [destruct (Rcompare A B); split; congruence|]. split; [destruct (Rcompare A B); split; congruence|].
  destruct (Rcompare_spec A B), (Rcompare_spec B C), (Rcompare_spec A C); split; intros; try congruence; try lra; split; congruence || lra.
Qed.
Print Assumptions var_cmp_preorder.
Example var_cmp_preorder_meets : num (gv_value (GVar 0 0 one)) /\ num (gv_value (GVar 0 1 pinf)) /\ num (gv_value (GVar 0 2 (B754_zero true))) /\
  var_cmp (GVar 0 2 (B754_zero true)) (GVar 0 0 one) = Lt /\ var_cmp (GVar 0 0 one) (GVar 0 1 pinf) = Lt.
Proof. repeat split; vm_compute; reflexivity. Qed.

Theorem var_eq_spec : forall x y,
  (var_eq x y = true <-> gv_graph x = gv_graph y /\ gv_index x = gv_index y /\ num (gv_value x) /\ num (gv_value y) /\ ext (gv_value x) = ext (gv_value y)) /\
  (var_eq x x = true <-> num (gv_value x)) /\ var_eq y x = var_eq x y /\ (var_eq x y = true -> var_cmp x y = Eq).
Proof.
  assert (FQ : forall a b, feq a b = true <-> num a /\ num b /\ ext a = ext b).
  { intros a b. destruct (num_dec a) as [Na|Na]; [destruct (num_dec b) as [Nb|Nb]|].
    - assert (FE : SpecFloat.SFcompare (B2SF a) (B2SF b) = Some (Rcompare (ext a) (ext b))) by exact (fcmp_ext a b Na Nb).
      unfold feq, Beqb, SpecFloat.SFeqb. rewrite FE. destruct (Rcompare_spec (ext a) (ext b)) as [L|E|L].
      + split; [discriminate|]. intros (_ & _ & Q). lra.
      + split; [intros _; repeat split; assumption|reflexivity].
      + split; [discriminate|]. intros (_ & _ & Q). lra.
    - assert (FE : SpecFloat.SFcompare (B2SF a) (B2SF b) = None) by (apply (fcmp_nan a b); right; exact Nb).
      unfold feq, Beqb, SpecFloat.SFeqb. rewrite FE. split; [discriminate|tauto].
    - assert (FE : SpecFloat.SFcompare (B2SF a) (B2SF b) = None) by (apply (fcmp_nan a b); left; exact Na).
      unfold feq, Beqb, SpecFloat.SFeqb. rewrite FE. split; [discriminate|tauto]. }
  assert (G : forall x y, var_eq x y = true <-> gv_graph x = gv_graph y /\ gv_index x = gv_index y /\ num (gv_value x) /\ num (gv_value y) /\ ext (gv_value x) = ext (gv_value y)).
  { intros x y. unfold var_eq. rewrite !andb_true_iff, FQ, !Nat.eqb_eq. tauto. }
  intros x y. split; [apply G|]. split; [rewrite G; tauto|]. split.
  - destruct (var_eq x y) eqn:E; [apply G; apply G in E|]. { destruct E as (A & B & C & D & F). repeat split; congruence || auto. }
    destruct (var_eq y x) eqn:E'; [|reflexivity]. apply G in E'. rewrite <- E. symmetry. apply G. destruct E' as (A & B & C & D & F). repeat split; congruence || auto.
  - intros E. apply G in E. destruct E as (_ & _ & A & B & C). unfold var_cmp. rewrite fcmp_ext by assumption. rewrite Rcompare_Eq by exact C. reflexivity.
Qed.
Print Assumptions var_eq_spec.
Example var_eq_meets : var_eq (GVar 3 1 zero) (GVar 3 1 (B754_zero true)) = true /\ var_eq (GVar 3 1 one) (GVar 3 2 one) = false /\ var_eq (GVar 3 1 one) (GVar 4 1 one) = false.
Proof. repeat split; vm_compute; reflexivity. Qed.

(** comparison with a number sees only the value *)
Theorem var_eq_number : forall x c, var_eq_f x c = true <-> num (gv_value x) /\ num c /\ ext (gv_value x) = ext c.
Proof.
  intros [gx ix v] c. destruct (proj1 (var_eq_spec (GVar 0 0 v) (GVar 0 0 c))) as [A B]. unfold var_eq, var_eq_f in *. cbn [gv_graph gv_index gv_value Nat.eqb andb] in *. split; [intros E; destruct (A E) as (_ & _ & H); exact H|intros H; apply B; tauto].
Qed.
Print Assumptions var_eq_number.
Example var_eq_number_meets : var_eq_f (GVar 0 7 two) two = true /\ var_eq_f (GVar 0 7 two) one = false /\ var_eq_f (GVar 0 7 nan) nan = false.
Proof. repeat split; vm_compute; reflexivity. Qed.

(** the contracts of [Eq] and [Ord] fail: equality is not reflexive, an [Equal] comparison does
    not mean equality, and NaN compares [Equal] to both ends of a strict chain *)
Theorem var_contracts_refuted : (exists x, var_eq x x = false) /\ (exists x y, var_cmp x y = Eq /\ num (gv_value x) /\ num (gv_value y) /\ var_eq x y = false) /\
  (exists x y z, var_cmp x y = Eq /\ var_cmp y z = Eq /\ var_cmp x z = Lt) /\ (exists x y, var_partial_cmp x y <> fcmp (gv_value x) (gv_value y)).
Proof.
  split; [exists (GVar 0 0 nan); vm_compute; reflexivity|]. split; [exists (GVar 0 0 one), (GVar 0 1 one); repeat split; vm_compute; reflexivity|].
  split; [exists (GVar 0 0 zero), (GVar 0 1 nan), (GVar 0 2 one); repeat split; vm_compute; reflexivity|].
  exists (GVar 0 0 nan), (GVar 0 0 nan). vm_compute. discriminate.
Qed.
Print Assumptions var_contracts_refuted.

(** ** Classes *)
Lemma mantissa_cases s m e (b : SpecFloat.bounded 53 1024 m e = true) : let x := B754_finite s m e b : f64 in
  Rabs (val x) = IZR (Zpos m) * bpow radix2 e /\ ((2 ^ 52 <= Zpos m)%Z -> bpow radix2 (-1022) <= Rabs (val x)) /\ ((Zpos m < 2 ^ 52)%Z -> 0 < Rabs (val x) < bpow radix2 (-1022)).
Proof.
  intros x. assert (V : Rabs (val x) = IZR (Zpos m) * bpow radix2 e).
  { unfold x, val. cbn [B2R]. unfold F2R. cbn [Fnum Fexp]. rewrite Rabs_mult, (Rabs_pos_eq (bpow radix2 e)) by apply bpow_ge_0. f_equal. rewrite <- abs_IZR. f_equal. destruct s; reflexivity. }
  split; [exact V|]. rewrite V. pose proof (proj1 (andb_prop _ _ b)) as C. apply Zeq_bool_eq in C. unfold SpecFloat.fexp, SpecFloat.emin in C.
  split; intros M.
  - assert (E : (-1074 <= e)%Z) by lia. apply Rle_trans with (IZR (2 ^ 52) * bpow radix2 e); [|apply Rmult_le_compat_r; [apply bpow_ge_0|apply IZR_le, M]].
    change (IZR (2 ^ 52)) with (bpow radix2 52). rewrite <- bpow_plus. apply bpow_le. lia.
  - assert (D : (Zpos (SpecFloat.digits2_pos m) <= 52)%Z).
    { rewrite Digits.Zpos_digits2_pos. apply Digits.Zdigits_le_Zpower. cbn. exact M. }
    assert (E : e = (-1074)%Z) by lia. subst e. split; [apply Rmult_lt_0_compat; [apply IZR_lt; lia|apply bpow_gt_0]|].
    apply Rlt_le_trans with (IZR (2 ^ 52) * bpow radix2 (-1074)); [apply Rmult_lt_compat_r; [apply bpow_gt_0|apply IZR_lt, M]|].
    change (IZR (2 ^ 52)) with (bpow radix2 52). rewrite <- bpow_plus. apply bpow_le. lia.
Qed.
(** every variable is exactly one of NaN, infinite, zero, subnormal and normal *)
Theorem var_classes : forall x, let v := gv_value x in
  (var_is_normal x = true <-> fin v /\ bpow radix2 (-1022) <= Rabs (val v)) /\
  (var_is_subnormal x = true <-> fin v /\ 0 < Rabs (val v) < bpow radix2 (-1022)) /\
  (var_is_zero x = true <-> fin v /\ val v = 0) /\ (var_is_finite x = true <-> fin v) /\
  (var_is_infinite x = true <-> v = pinf \/ v = ninf) /\ (var_is_nan x = true <-> v = nan) /\
  length (filter (fun b : bool => b) [var_is_nan x; var_is_infinite x; var_is_zero x; var_is_subnormal x; var_is_normal x]) = 1%nat.
Proof.
  intros [gx ix v] v'. unfold var_is_normal, var_is_subnormal, var_is_zero, var_is_finite, var_is_infinite, var_is_nan in *. cbn [gv_value] in *. subst v'.
  pose proof (bpow_gt_0 radix2 (-1022)) as P.
  destruct v as [s|s| |s m e b].
  - change (val (B754_zero s : f64)) with 0. rewrite Rabs_R0. cbn [fis_normal fis_subnormal fis_infinite is_nan is_finite].
    assert (Z : feq (B754_zero s) zero = true) by (destruct s; reflexivity). rewrite Z. cbn.
    split; [split; [discriminate|lra]|]. split; [split; [discriminate|lra]|]. split; [split; [intros _; split; reflexivity|reflexivity]|].
    split; [split; reflexivity|]. split; [split; [discriminate|intros [H|H]; discriminate]|]. split; [split; discriminate|reflexivity].
  - assert (Z : feq (B754_infinity s) zero = false) by (destruct s; reflexivity). rewrite Z. cbn.
    split; [split; [discriminate|intros [H _]; discriminate]|]. split; [split; [discriminate|intros [H _]; discriminate]|]. split; [split; [discriminate|intros [H _]; discriminate]|].
    split; [split; discriminate|]. split; [split; [intros _; destruct s; [right|left]; reflexivity|reflexivity]|]. split; [split; discriminate|reflexivity].
  - assert (Z : feq (B754_nan : f64) zero = false) by reflexivity. rewrite Z. cbn.
    split; [split; [discriminate|intros [H _]; discriminate]|]. split; [split; [discriminate|intros [H _]; discriminate]|]. split; [split; [discriminate|intros [H _]; discriminate]|].
    split; [split; discriminate|]. split; [split; [discriminate|intros [H|H]; discriminate]|]. split; [split; reflexivity|reflexivity].
  - destruct (mantissa_cases s m e b) as (V & NM & SB). set (x := B754_finite s m e b : f64) in *.
    assert (Fx : fin x) by reflexivity. cbn [fis_normal fis_subnormal fis_infinite is_nan is_finite] in *.
    assert (PV : 0 < Rabs (val x)) by (rewrite V; apply Rmult_lt_0_compat; [apply IZR_lt; lia|apply bpow_gt_0]).
    assert (NZ : val x <> 0) by (intros Q; rewrite Q, Rabs_R0 in PV; lra).
    assert (Z : feq x zero = false) by (apply not_true_iff_false; intros Q; apply (feq_R x zero Fx eq_refl) in Q; exact (NZ Q)). rewrite Z.
    change (fis_normal x) with (Z.leb (2 ^ 52) (Zpos m)). change (fis_subnormal x) with (Z.ltb (Zpos m) (2 ^ 52)). change (fis_infinite x) with false. change (is_nan x) with false. change (is_finite x) with true.
    destruct (Z.le_gt_cases (2 ^ 52) (Zpos m)) as [L|L].
    + specialize (NM L). rewrite (proj2 (Z.leb_le _ _) L), (proj2 (Z.ltb_ge _ _) L).
      split; [tauto|]. split; [split; [discriminate|lra]|]. split; [split; [discriminate|tauto]|]. split; [split; auto|].
      split; [split; [discriminate|intros [H|H]; discriminate]|]. split; [split; discriminate|reflexivity].
    + specialize (SB L). rewrite (proj2 (Z.leb_gt _ _) L), (proj2 (Z.ltb_lt _ _) L).
      split; [split; [discriminate|lra]|]. split; [tauto|]. split; [split; [discriminate|tauto]|]. split; [split; auto|].
      split; [split; [discriminate|intros [H|H]; discriminate]|]. split; [split; discriminate|reflexivity].
Qed.
Print Assumptions var_classes.
Example var_classes_meets : var_is_normal (GVar 0 0 one) = true /\ var_is_subnormal (GVar 0 0 (lit 1 (-1074))) = true /\ var_is_normal (GVar 0 0 (lit 1 (-1022))) = true /\
  var_is_zero (GVar 0 0 (B754_zero true)) = true /\ var_is_infinite (GVar 0 0 (fdiv one zero)) = true /\ var_is_nan (GVar 0 0 (fdiv zero zero)) = true.
Proof. repeat split; vm_compute; reflexivity. Qed.

(** the sign tests look at the sign bit; a zero is positive or negative *)
Theorem var_sign : forall x, let v := gv_value x in
  (var_is_positive x = negb (var_is_negative x)) /\
  (0 < ext v -> var_is_positive x = true /\ feq (var_signum x) one = true) /\ (ext v < 0 -> var_is_negative x = true /\ feq (var_signum x) (fneg one) = true) /\
  (is_nan v = true -> var_signum x = nan) /\
  var_is_positive (GVar (gv_graph x) (gv_index x) zero) = true /\ var_is_negative (GVar (gv_graph x) (gv_index x) (B754_zero true)) = true /\
  feq (var_signum (GVar (gv_graph x) (gv_index x) zero)) one = true /\ feq (var_signum (GVar (gv_graph x) (gv_index x) (B754_zero true))) (fneg one) = true.
Proof.
  intros [gx ix v] v'. unfold var_is_positive, var_is_negative, var_signum, fsignum, fis_sign_positive, fis_sign_negative in *. cbn [gv_value gv_graph gv_index] in *. subst v'.
  assert (MX : 0 < fmaxR) by apply bpow_gt_0.
  assert (FP : forall m e, 0 < F2R (Float radix2 (Zpos m) e)) by (intros; apply F2R_gt_0; reflexivity).
  assert (FN : forall m e, F2R (Float radix2 (Zneg m) e) < 0) by (intros; apply F2R_lt_0; reflexivity).
  assert (R1 : feq one one = true) by (vm_compute; reflexivity). assert (R2 : feq (fneg one) (fneg one) = true) by (vm_compute; reflexivity).
  split; [reflexivity|]. split; [|split; [|split; [|repeat split; vm_compute; reflexivity]]].
  - intros H. destruct v as [s|s| |s m e b]; cbn in H; try lra; destruct s; cbn in H |- *; try (exfalso; lra); try (split; [reflexivity|exact R1]). exfalso. pose proof (FN m e). lra.
  - intros H. destruct v as [s|s| |s m e b]; cbn in H; try lra; destruct s; cbn in H |- *; try (exfalso; lra); try (split; [reflexivity|exact R2]). exfalso. pose proof (FP m e). lra.
  - intros ->. reflexivity.
Qed.
Print Assumptions var_sign.
Example var_sign_meets : 0 < ext pinf /\ ext ninf < 0 /\ is_nan nan = true.
Proof. unfold ext, pinf, ninf. pose proof (bpow_gt_0 radix2 1024). fold fmaxR in *. repeat split; lra. Qed.

(** ** Rounding a variable *)
Lemma znearest_away r : let z := Znearest (Zle_bool 0) r in Rabs (r - IZR z) <= / 2 /\ (Rabs (r - IZR z) = / 2 -> Rabs r < Rabs (IZR z)).
Proof.
  intros z. split; [apply Znearest_half|]. unfold z, Znearest. pose proof (Zfloor_lb r) as LB. pose proof (Zfloor_ub r) as UB.
  destruct (Rcompare_spec (r - IZR (Zfloor r)) (/ 2)) as [L|E|L]; intros H.
  - rewrite Rabs_pos_eq in H by lra. lra.
  - assert (NE : IZR (Zfloor r) <> r) by lra. pose proof (Zceil_floor_neq r NE) as CE. destruct (Z.leb_spec 0 (Zfloor r)) as [P|P].
    + rewrite CE, plus_IZR. apply IZR_le in P. rewrite !Rabs_pos_eq by lra. lra.
    + assert (Q : IZR (Zfloor r) <= -1) by (apply IZR_le; lia). rewrite !Rabs_left by lra. lra.
  - assert (NE : IZR (Zfloor r) <> r) by lra. pose proof (Zceil_floor_neq r NE) as CE. rewrite CE, plus_IZR in H. rewrite Rabs_left in H by lra. lra.
Qed.
(** [round] gives the nearest integer, half away from zero, and moves the variable's value away
    from the vertex it stands for: the vertex, and so the gradient, stay as they were *)
Theorem var_round_spec : forall x, let y := var_round x in
  (fin (gv_value x) -> fin (gv_value y) /\ exists z : Z, val (gv_value y) = IZR z /\ Rabs (val (gv_value x) - IZR z) <= / 2 /\
    (Rabs (val (gv_value x) - IZR z) = / 2 -> Rabs (val (gv_value x)) < Rabs (IZR z))) /\
  (fin (gv_value x) \/ gv_value y = gv_value x) /\ gv_graph y = gv_graph x /\ gv_index y = gv_index x /\
  (forall adj, wrt_all64 adj [y] = wrt_all64 adj [x]).
Proof.
  intros x y. destruct (Bnearbyint_correct 53 1024 pe53 mode_NA (gv_value x)) as (V & F & _). split; [|split; [|split; [reflexivity|split; [reflexivity|intros adj; reflexivity]]]].
  - intros Fx. split; [unfold y, var_round, fround, fin; cbn [gv_value]; rewrite F; exact Fx|]. destruct (znearest_away (val (gv_value x))) as [A B].
    exists (Znearest (Zle_bool 0) (val (gv_value x))). split; [|split; assumption]. unfold y, var_round, fround, val. cbn [gv_value]. rewrite V. apply round_FIX_IZR.
  - destruct (gv_value x) as [s|s| |s m e b] eqn:E; [left; reflexivity|right|right|left; reflexivity]; unfold y, var_round; rewrite E; reflexivity.
Qed.
Print Assumptions var_round_spec.
Example var_round_meets : feq (gv_value (var_round (GVar 0 0 (lit 5 (-1))))) (lit 3 0) = true /\ feq (gv_value (var_round (GVar 0 0 (lit (-5) (-1))))) (lit (-3) 0) = true /\
  feq (gv_value (var_round (GVar 0 0 (lit 49 (-5))))) two = true.
Proof. repeat split; vm_compute; reflexivity. Qed.
(** so the rounded square of 1.125 has the value 1 and the derivative 2.25, although the rounded
    square is constant near 1.125 *)
Theorem var_round_gradient_refuted : exists a, match run64 [INew a; IVV OMul 0 0] [] [] with
  | Ret (g, [x; y]) => feq (gv_value (var_round (GVar 0 (findex64 y) (fvalue y)))) one &&
      match accumulate64 g y with Ret adj => match wrt_all64 adj [GVar 0 (findex64 x) (fvalue x)] with Ret [d] => feq d (fadd a a) && flt one d | _ => false end | _ => false end
  | _ => false end = true.
Proof. exists (lit 9 (-3)). vm_compute. reflexivity. Qed.
Print Assumptions var_round_gradient_refuted.

(** ** Reading several derivatives; vertices *)
Theorem wrt_all64_spec : forall adj xs, (forall x, In x xs -> (gv_index x < length adj)%nat) ->
  exists ds, wrt_all64 adj xs = Ret ds /\ length ds = length xs /\ forall k x, nth_error xs k = Some x -> nth_error ds k = nth_error adj (gv_index x).
Proof.
  intros adj. induction xs as [|x xs IH]; intros H.
  - exists []. repeat split. intros [|k] x; discriminate.
  - destruct IH as (ds & E & L & N); [intros y Hy; apply H; right; exact Hy|]. specialize (H x (or_introl eq_refl)).
    destruct (nth_error adj (gv_index x)) as [d|] eqn:D; [|apply nth_error_None in D; lia].
    exists (d :: ds). cbn [wrt_all64]. rewrite D. cbn [unwrap bind]. rewrite E. cbn [bind]. split; [reflexivity|]. split; [cbn; lia|].
    intros [|k] y Hy; cbn in Hy |- *; [injection Hy as <-; symmetry; exact D|apply N, Hy].
Qed.
Print Assumptions wrt_all64_spec.
Example wrt_all64_meets : wrt_all64 [one; zero; pinf] [GVar 0 2 one; GVar 0 0 one; GVar 0 2 one] = Ret [pinf; one; pinf].
Proof. reflexivity. Qed.
(** the constructors of a vertex name vertex 0 where there is no parent, with a zero partial: a
    tape with such a vertex gives the same finite adjoints, since the contribution is zero *)
Theorem vertex_constructors : forall p q i j, let adds v k d := fold_left (fun a e => if Nat.eqb (snd e) k then fadd a (fmul (fst e) d) else a) [(fp0 v, fq0 v); (fp1 v, fq1 v)] in
  (forall k d a, fin a -> fin d -> val (adds vertex_new_nullary k d a) = val a) /\
  (forall k d a, fin a -> fin d -> k <> i -> val (adds (vertex_new_unary p i) k d a) = val a) /\
  (forall d a, i <> 0%nat -> adds (vertex_new_unary p i) i d a = fadd a (fmul p d)) /\
  (forall d a, i <> j -> adds (vertex_new_binary p i q j) i d a = fadd a (fmul p d) /\ adds (vertex_new_binary p i q j) j d a = fadd a (fmul q d)) /\
  (forall v w, vertex_eq v w = true <-> feq (fp0 v) (fp0 w) = true /\ feq (fp1 v) (fp1 w) = true /\ fq0 v = fq0 w /\ fq1 v = fq1 w) /\
  vertex_eq (vertex_new_binary p i q j) (vertex_new_binary p i q j) = feq p p && feq q q.
Proof.
  intros p q i j adds.
  assert (Z : forall a d, fin a -> fin d -> fin (fadd a (fmul zero d)) /\ val (fadd a (fmul zero d)) = val a).
  { intros a d Fa Fd. destruct (fmul_R zero d eq_refl Fd) as [A B]; [change (val zero) with 0; rewrite Rmult_0_l, rnd_0, Rabs_R0; apply bpow_gt_0|].
    change (val zero) with 0 in B. rewrite Rmult_0_l, rnd_0 in B. destruct (fadd_R a _ Fa A) as [C D]; [rewrite B, Rplus_0_r, rnd_id by apply val_fmt; apply val_lt|].
    split; [exact C|]. rewrite D, B, Rplus_0_r. apply rnd_id, val_fmt. }
  split; [|split; [|split; [|split; [|split]]]].
  - intros k d a Fa Fd. unfold adds. cbn [fold_left vertex_new_nullary fp0 fp1 fq0 fq1 fst snd]. destruct (Nat.eqb 0 k); [|reflexivity].
    destruct (Z a d Fa Fd) as [F1 V1]. destruct (Z _ d F1 Fd) as [_ V2]. rewrite V2, V1. reflexivity.
  - intros k d a Fa Fd N. unfold adds. cbn [fold_left vertex_new_unary fp0 fp1 fq0 fq1 fst snd]. destruct (Nat.eqb_spec i k); [congruence|].
    destruct (Nat.eqb 0 k); [|reflexivity]. apply Z; assumption.
  - intros d a N. unfold adds. cbn [fold_left vertex_new_unary fp0 fp1 fq0 fq1 fst snd]. rewrite Nat.eqb_refl. destruct (Nat.eqb_spec 0 i); [congruence|reflexivity].
  - intros d a N. unfold adds. cbn [fold_left vertex_new_binary fp0 fp1 fq0 fq1 fst snd]. rewrite !Nat.eqb_refl. destruct (Nat.eqb_spec j i), (Nat.eqb_spec i j); try congruence. split; reflexivity.
  - intros v w. unfold vertex_eq. rewrite !andb_true_iff, !Nat.eqb_eq. tauto.
  - unfold vertex_eq. cbn. rewrite !Nat.eqb_refl, andb_true_r. reflexivity.
Qed.
Print Assumptions vertex_constructors.
Example vertex_constructors_meets : (1 <> 0)%nat /\ (1 <> 2)%nat /\ fin one /\ feq one one && feq nan nan = false.
Proof. repeat split; vm_compute; try reflexivity; discriminate. Qed.
