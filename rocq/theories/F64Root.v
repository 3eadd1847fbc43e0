(** C98: the root finders computed with binary64 arithmetic. *)
From Coq Require Import ZArith Reals Lra Lia List Bool Psatz Floats.SpecFloat.
From Flocq Require Import Core.Core IEEE754.BinarySingleNaN.
From Verif Require Import Res F64Model F64Base F64RootModel.
Import ListNotations.
Open Scope R_scope.

Arguments fabs : simpl never. Arguments fneg : simpl never.

(** ** values *)
Lemma fabs_R x : val (fabs x) = Rabs (val x). Proof. apply B2R_Babs. Qed.
Lemma fabs_fin x : fin (fabs x) <-> fin x. Proof. unfold fin, fabs. rewrite is_finite_Babs. reflexivity. Qed.
Lemma fneg_R x : val (fneg x) = - val x. Proof. apply B2R_Bopp. Qed.
Lemma fneg_fin x : fin (fneg x) <-> fin x. Proof. unfold fin, fneg. rewrite is_finite_Bopp. reflexivity. Qed.
Lemma val_SF x s m e : B2SF x = S754_finite s m e -> fin x /\ val x = F2R (Float radix2 (cond_Zopp s (Zpos m)) e).
Proof. destruct x; simpl; intros E; try discriminate. injection E as -> -> ->. split; reflexivity. Qed.
Lemma zero_R : fin zero /\ val zero = 0. Proof. split; reflexivity. Qed.
Lemma eps64_R : fin eps64 /\ val eps64 = bpow radix2 (-52).
Proof. destruct (val_SF eps64 false 4503599627370496 (-104)) as [A B]. vm_compute. reflexivity. split. exact A. rewrite B. unfold F2R. simpl Fnum. simpl Fexp. change (bpow radix2 (-104)) with (/ IZR (2 ^ 104)). change (bpow radix2 (-52)) with (/ IZR (2 ^ 52)). change (2 ^ 104)%Z with (4503599627370496 * 2 ^ 52)%Z. rewrite mult_IZR. field; try split; apply not_0_IZR; discriminate. Qed.
Lemma half64_R : fin half64 /\ val half64 = / 2.
Proof. destruct (val_SF half64 false 4503599627370496 (-53)) as [A B]. vm_compute. reflexivity. split. exact A. rewrite B. unfold F2R. simpl Fnum. simpl Fexp. change (bpow radix2 (-53)) with (/ IZR (2 ^ 53)). change (2 ^ 53)%Z with (4503599627370496 * 2)%Z. rewrite mult_IZR. field. Qed.

(** the threshold of [close(_, 0.0)]: [(42 * 2^-52)^2], about 8.7e-29 *)
Definition tiny64 : R := 1764 * bpow radix2 (-104).
Lemma tiny64_pos : 0 < tiny64. Proof. unfold tiny64. pose proof (bpow_gt_0 radix2 (-104)). lra. Qed.
Lemma tol_R : fin (fmul (fmul (lit 42 0) eps64) (fmul (lit 42 0) eps64)) /\ val (fmul (fmul (lit 42 0) eps64) (fmul (lit 42 0) eps64)) = tiny64.
Proof. destruct (val_SF (fmul (fmul (lit 42 0) eps64) (fmul (lit 42 0) eps64)) false 7758154045587456 (-146)) as [A B]. vm_compute. reflexivity.
  split. exact A. rewrite B. unfold F2R, tiny64. simpl Fnum. simpl Fexp. change (bpow radix2 (-146)) with (/ IZR (2 ^ 146)). change (bpow radix2 (-104)) with (/ IZR (2 ^ 104)).
  change (2 ^ 146)%Z with (2 ^ 42 * 2 ^ 104)%Z. rewrite mult_IZR. change 7758154045587456%Z with (1764 * 2 ^ 42)%Z. simpl cond_Zopp. replace 7758154045587456%Z with (1764 * 2 ^ 42)%Z by reflexivity. rewrite mult_IZR. field. split; apply not_0_IZR; discriminate. Qed.

(** [close(y, 0.0)] holds exactly of the finite numbers below the threshold; NaN and the infinities
    are not close to zero *)
Theorem close64_zero y : close64 y zero = true <-> fin y /\ Rabs (val y) < tiny64.
Proof.
  pose proof tiny64_pos as T. destruct y as [s | s | | s m e b].
  - split. intros _. split. reflexivity. change (val (B754_zero s)) with 0. rewrite Rabs_R0. exact T. intros _. destruct s; reflexivity.
  - split. intros H. destruct s; vm_compute in H; discriminate. intros [H _]. discriminate.
  - split. intros H. vm_compute in H. discriminate. intros [H _]. discriminate.
  - set (y := B754_finite s m e b). assert (Fy : fin y) by reflexivity.
    assert (N : val y <> 0).
    { unfold val, y, B2R. apply F2R_neq_0. simpl. destruct s; discriminate. }
    unfold close64. replace (feq y zero) with false. 2:{ symmetry. apply not_true_iff_false. intros H. apply feq_R in H; [ | exact Fy | reflexivity]. apply N, H. }
    destruct (fsub_R y zero Fy eq_refl) as [A B]. { change (val zero) with 0. rewrite Rminus_0_r, rnd_id by apply val_fmt. apply val_lt. }
    change (val zero) with 0 in B. rewrite Rminus_0_r, rnd_id in B by apply val_fmt.
    destruct (fmul_R y zero Fy eq_refl) as [C D]. { change (val zero) with 0. rewrite Rmult_0_r, rnd_0, Rabs_R0. apply bpow_gt_0. }
    change (val zero) with 0 in D. rewrite Rmult_0_r, rnd_0 in D.
    rewrite (proj2 (feq_R (fmul y zero) zero C eq_refl) D).
    cbv zeta. rewrite flt_R; [ | apply fabs_fin, A | apply tol_R]. rewrite (proj2 tol_R), fabs_R, B. split; [intros H; split; [exact Fy | exact H] | intros H; apply H].
Qed.
Print Assumptions close64_zero.
Example close64_zero_case : close64 (lit 1 (-94)) zero = true /\ close64 (lit 1 (-93)) zero = false.
Proof. split; vm_compute; reflexivity. Qed.

(** ** the test for a sign change *)
Lemma fle_SF x y : fle x y = SFleb (B2SF x) (B2SF y). Proof. reflexivity. Qed.
Lemma finite_sign (s : bool) m e b : 0 < (if s then -1 else 1) * val (@B754_finite 53 1024 s m e b).
Proof. unfold val, B2R. destruct s; simpl cond_Zopp.
  - change (Z.neg m) with (- Z.pos m)%Z. rewrite F2R_Zopp. assert (0 < F2R (Float radix2 (Z.pos m) e)) by (apply F2R_gt_0; reflexivity). lra.
  - assert (0 < F2R (Float radix2 (Z.pos m) e)) by (apply F2R_gt_0; reflexivity). lra. Qed.
Lemma neg_R x : fin x -> (flt x zero = true <-> val x < 0). Proof. intros X. apply (flt_R x zero X eq_refl). Qed.
Lemma pos_R x : fin x -> (flt zero x = true <-> 0 < val x). Proof. intros X. apply (flt_R zero x eq_refl X). Qed.

(** The product of two values may overflow or be NaN, but it cannot underflow when neither factor is
    close to zero: [y_min * y_max <= 0.0] then decides exactly whether the signs differ. *)
Theorem product_test a b : close64 a zero = false -> close64 b zero = false ->
  (fle (fmul a b) zero = true <->
   (flt a zero = true /\ flt zero b = true) \/ (flt zero a = true /\ flt b zero = true)).
Proof.
  intros Ca Cb.
  assert (Na : forall x, fin x -> close64 x zero = false -> tiny64 <= Rabs (val x)).
  { intros x X C. apply Rnot_lt_le. intros L. rewrite (proj2 (close64_zero x)) in C. discriminate. split; assumption. }
  destruct a as [s | s | | s m e h]. { destruct s; discriminate Ca. }
  - assert (Fin : fle (fmul (B754_infinity s) b) zero = true <-> match b with B754_nan => False | _ => s <> Bsign b end).
    { destruct b as [t | t | | t m' e' h']; [destruct t; discriminate Cb | | | ]; clear Ca Cb Na; [destruct s, t | destruct s | destruct s, t]; split; intros H; try discriminate; try reflexivity; try contradiction; exfalso; apply H; reflexivity. }
    rewrite Fin. clear Fin.
    destruct b as [t | t | | t m' e' h']; [destruct t; discriminate Cb | | | ]; clear Ca Cb Na; [destruct s, t | destruct s | destruct s, t]; split; intros H; try discriminate; try contradiction; try (left; split; reflexivity); try (right; split; reflexivity);
      try (exfalso; apply H; reflexivity); destruct H as [[H1 H2] | [H1 H2]]; discriminate.
  - split. intros H. destruct b; discriminate. intros [[H _] | [H _]]; discriminate.
  - destruct b as [t | t | | t m' e' h']. { destruct t; discriminate Cb. }
    + clear Ca Cb Na. destruct s, t; split; intros H; try discriminate; try reflexivity; try (left; split; reflexivity); try (right; split; reflexivity);
      destruct H as [[H1 H2] | [H1 H2]]; discriminate.
    + split. intros H. discriminate. intros [[_ H] | [H H']]. discriminate. discriminate.
    + set (a := B754_finite s m e h) in *. set (b := B754_finite t m' e' h') in *.
      assert (Fa : fin a) by reflexivity. assert (Fb : fin b) by reflexivity.
      pose proof (Na a Fa Ca) as Ta. pose proof (Na b Fb Cb) as Tb. pose proof tiny64_pos as T.
      rewrite (neg_R a Fa), (pos_R b Fb), (pos_R a Fa), (neg_R b Fb).
      assert (Sa : 0 < (if s then -1 else 1) * val a) by apply finite_sign.
      assert (Sb : 0 < (if t then -1 else 1) * val b) by apply finite_sign.
      assert (Big : bpow radix2 (-208) <= Rabs (val a * val b)).
      { rewrite Rabs_mult. apply Rle_trans with (tiny64 * tiny64). unfold tiny64. replace (bpow radix2 (-208)) with (bpow radix2 (-104) * bpow radix2 (-104)) by (rewrite <- bpow_plus; reflexivity).
        pose proof (bpow_gt_0 radix2 (-104)). nra. apply Rmult_le_compat; lra. }
      assert (G : fmt (bpow radix2 (-208))) by (apply generic_format_bpow; cbn; discriminate).
      pose proof (bpow_gt_0 radix2 (-208)) as BP.
      pose proof (Bmult_correct 53 1024 _ _ mode_NE a b) as C. revert C; case Rlt_bool_spec; intros H0 C.
      * destruct (fmul_R a b Fa Fb H0) as [P Q]. rewrite (fle_R _ zero P eq_refl), Q. change (val zero) with 0.
        destruct (Rle_or_lt 0 (val a * val b)) as [L | L].
        -- rewrite Rabs_pos_eq in Big by exact L. pose proof (rnd_ge _ _ G Big). split; [lra | ]. intros [[? ?] | [? ?]]; nra.
        -- rewrite Rabs_left in Big by exact L. assert (rnd (val a * val b) <= - bpow radix2 (-208)) by (apply rnd_le_fmt; [apply fmt_opp, G | lra]).
           split; [intros _ | lra]. destruct s, t; nra.
      * rewrite fle_SF. unfold fmul. rewrite C. change (Bsign a) with s. change (Bsign b) with t. clear C H0 Big.
        clearbody a b. destruct s, t; cbn -[val]; split; intros H; try discriminate; try reflexivity; try (left; split; lra); try (right; split; lra);
          destruct H as [[H1 H2] | [H1 H2]]; lra.
Qed.
Print Assumptions product_test.
Example product_test_case : fle (fmul (lit 1 1000) (lit (-1) 1000)) zero = true /\ fle (fmul (lit 1 (-90)) (lit 1 (-90))) zero = false /\ fle (fmul (lit 1 (-600)) (lit 1 (-600))) zero = true.
Proof. repeat split; vm_compute; reflexivity. Qed.

(** ** termination: every objective, every guess, every configuration *)
Lemma bisect64_total f acc : forall fuel count root dx, (1002 - count <= Z.of_nat fuel)%Z -> (1 <= fuel)%nat -> exists v, bisect_loop64 fuel f acc count root dx = Ret v.
Proof. induction fuel as [| fuel IH]; intros count root dx H1 H2. lia. cbn [bisect_loop64]. unfold max_iter64 in *. destruct (Z.leb_spec count 1000); [ | eauto].
  cbv zeta. destruct (_ || _); [eauto | ]. apply IH; lia. Qed.
Lemma newton64_loop_total f g acc : forall fuel count root fr dfr xl xh dx dxold, (1002 - count <= Z.of_nat fuel)%Z -> (1 <= fuel)%nat ->
  exists v, newton_loop64 fuel f g acc count root fr dfr xl xh dx dxold = Ret v.
Proof. induction fuel as [| fuel IH]; intros count root fr dfr xl xh dx dxold H1 H2. lia. cbn [newton_loop64]. unfold max_iter64 in *. destruct (Z.leb_spec count 1000); [ | eauto].
  cbv zeta. repeat match goal with |- exists v, (if ?c then _ else _) = _ => destruct c end; try (eexists; reflexivity); apply IH; lia. Qed.
Lemma brent64_loop_total f acc : forall fuel count root fr d e b, (1002 - count <= Z.of_nat fuel)%Z -> (1 <= fuel)%nat ->
  exists v, brent_loop64 fuel f acc count root fr d e b = Ret v.
Proof. induction fuel as [| fuel IH]; intros count root fr d e b H1 H2. lia. cbn [brent_loop64]. unfold max_iter64 in *. destruct (Z.leb_spec count 1000); [ | eauto].
  cbv zeta. destruct (flt zero fr && flt zero (ymax b) || flt fr zero && flt (ymax b) zero); cbv iota;
  (destruct (flt (fabs _) (fabs fr)); cbv iota; (destruct (_ || _); [eauto | ]); destruct (brent_step64 _ _ _ _ _ _ _) as [d2 e2]; apply IH; lia). Qed.
Lemma solve64_loop_total f impl dt acc : (forall b c, (2 <= c <= 1000)%Z -> exists v, impl acc b c = Ret v) ->
  forall fuel count flip b, (2 <= count)%Z -> (1002 - count <= Z.of_nat fuel)%Z -> (1 <= fuel)%nat -> exists v, solve_loop64 fuel f impl dt acc count flip b = Ret v.
Proof. intros I. induction fuel as [| fuel IH]; intros count flip b H0 H1 H2. lia. cbn [solve_loop64]. unfold max_iter64 in *. destruct (Z.leb_spec count 1000); [ | eauto].
  cbv zeta. repeat match goal with |- exists v, (if ?c then _ else _) = _ => destruct c end; try (eexists; reflexivity); try (apply IH; lia). apply I. lia. Qed.
Lemma solve64_total fuel f impl guess dt : (1000 <= fuel)%nat -> (forall acc b c, (2 <= c <= 1000)%Z -> exists v, impl acc b c = Ret v) ->
  if flt zero (accuracy64 dt) then exists v, solve64 fuel f impl guess dt = Ret v else solve64 fuel f impl guess dt = Panic.
Proof. intros H I. unfold solve64. destruct (flt zero (accuracy64 dt)); simpl assertb; [ | reflexivity]. cbv zeta.
  destruct (close64 (f guess) zero). eauto. apply solve64_loop_total; auto; lia. Qed.

(** For every objective (it may be discontinuous, return NaN or infinities), every derivative, guess
    and configuration, the three root finders return within [MAX_ITERATIONS] steps; they panic when,
    and only when, the accuracy is not a positive number (so also when it is NaN). *)
Theorem finders64_total fuel f g guess dt : (1000 <= fuel)%nat ->
  (flt zero (accuracy64 dt) = true -> (exists v, bisection64 fuel f guess dt = Ret v) /\ (exists v, newton64 fuel f g guess dt = Ret v) /\ exists v, brent64 fuel f guess dt = Ret v) /\
  (flt zero (accuracy64 dt) = false -> bisection64 fuel f guess dt = Panic /\ newton64 fuel f g guess dt = Panic /\ brent64 fuel f guess dt = Panic).
Proof.
  intros H.
  assert (B : forall acc b c, (2 <= c <= 1000)%Z -> exists v, bisection_impl64 fuel f acc b c = Ret v).
  { intros acc b c Hc. unfold bisection_impl64. destruct (flt (ymin b) zero); apply bisect64_total; lia. }
  assert (N : forall acc b c, (2 <= c <= 1000)%Z -> exists v, newton_impl64 fuel f g acc b c = Ret v).
  { intros acc b c Hc. unfold newton_impl64. apply newton64_loop_total; lia. }
  assert (T : forall acc b c, (2 <= c <= 1000)%Z -> exists v, brent_impl64 fuel f acc b c = Ret v).
  { intros acc b c Hc. unfold brent_impl64. apply brent64_loop_total; lia. }
  pose proof (solve64_total fuel f _ guess dt H B) as X. pose proof (solve64_total fuel f _ guess dt H N) as Y. pose proof (solve64_total fuel f _ guess dt H T) as Z.
  fold (bisection64 fuel f) in X. fold (newton64 fuel f g) in Y. fold (brent64 fuel f) in Z.
  split; intros E; rewrite E in *; auto.
Qed.
Print Assumptions finders64_total.
Example finders64_total_case : flt zero (accuracy64 (RData64 one (lit 1 (-30)) zero one true)) = true /\ flt zero nan = false.
Proof. split; vm_compute; reflexivity. Qed.

(** ** what a value returned by [solve] is *)
Definition in64 (dt : rdata64) (x : f64) : Prop := enforced64 dt = true -> fin x /\ val (lo64 dt) <= val x <= val (hi64 dt).
Definition good_interval (dt : rdata64) : Prop := enforced64 dt = true -> fin (lo64 dt) /\ fin (hi64 dt) /\ val (lo64 dt) <= val (hi64 dt).
Definition change64 (f : f64 -> f64) (b : bracket64) : Prop :=
  ymin b = f (xmin b) /\ ymax b = f (xmax b) /\
  ((flt (f (xmin b)) zero = true /\ flt zero (f (xmax b)) = true) \/ (flt zero (f (xmin b)) = true /\ flt (f (xmax b)) zero = true)).

Lemma flt_inf x : fin x -> flt ninf x = true /\ flt x ninf = false /\ flt x pinf = true /\ flt pinf x = false.
Proof. intros X. destruct x as [[] | s | | [] m e h]; try discriminate X; repeat split; reflexivity. Qed.
Lemma flt_nan_l y : flt nan y = false. Proof. destruct y; reflexivity. Qed.
Lemma enforce64_in dt x : good_interval dt -> is_nan x = false -> in64 dt (enforce64 dt x).
Proof.
  intros G N E. destruct (G E) as (L & H & O). unfold enforce64. rewrite E. simpl andb.
  destruct x as [s | s | | s m e h]; try discriminate.
  - assert (X : fin (B754_zero s)) by reflexivity. destruct (flt (B754_zero s) (lo64 dt)) eqn:A. split. exact L. lra.
    destruct (flt (hi64 dt) (B754_zero s)) eqn:B. split. exact H. lra. split. exact X.
    apply not_true_iff_false in A, B. rewrite flt_R in A, B by assumption. unfold val in *; lra.
  - destruct (flt_inf _ L) as (A1 & A2 & A3 & A4). destruct (flt_inf _ H) as (B1 & B2 & B3 & B4). unfold pinf, ninf in *. destruct s.
    + rewrite A1. split. exact L. lra.
    + rewrite A4, B3. split. exact H. lra.
  - set (y := B754_finite s m e h) in *. assert (X : fin y) by reflexivity. destruct (flt y (lo64 dt)) eqn:A. split. exact L. lra.
    destruct (flt (hi64 dt) y) eqn:B. split. exact H. lra. split. exact X.
    apply not_true_iff_false in A, B. rewrite flt_R in A, B by assumption. unfold val in *; lra.
Qed.
Lemma fin_not_nan x : fin x -> is_nan x = false. Proof. destruct x; intros H; try reflexivity; discriminate. Qed.
Lemma over_not_nan (z : f64) s : B2SF z = binary_overflow 53 1024 mode_NE s -> is_nan z = false.
Proof. destruct z; simpl; intros E; try reflexivity; discriminate E. Qed.
Lemma fadd_not_nan x y : fin x -> is_nan y = false -> is_nan (fadd x y) = false.
Proof. intros X Y. destruct y as [s | s | | s m e h] eqn:Ey; try discriminate; [ | destruct x; try discriminate X; reflexivity | ]; rewrite <- Ey in *;
  assert (Fy : fin y) by (rewrite Ey; reflexivity); pose proof (Bplus_correct 53 1024 _ _ mode_NE x y X Fy) as C; revert C; case Rlt_bool_spec; intros H0 C;
  try (apply fin_not_nan; apply C); apply (over_not_nan _ _ (proj1 C)). Qed.
Lemma fsub_not_nan x y : fin x -> is_nan y = false -> is_nan (fsub x y) = false.
Proof. intros X Y. destruct y as [s | s | | s m e h] eqn:Ey; try discriminate; [ | destruct x; try discriminate X; destruct s; reflexivity | ]; rewrite <- Ey in *;
  assert (Fy : fin y) by (rewrite Ey; reflexivity); pose proof (Bminus_correct 53 1024 _ _ mode_NE x y X Fy) as C; revert C; case Rlt_bool_spec; intros H0 C;
  try (apply fin_not_nan; apply C); apply (over_not_nan _ _ (proj1 C)). Qed.
Lemma growth_not_nan y : is_nan y = false -> is_nan (fmul growth64 y) = false.
Proof. intros Y. assert (E : exists s m e h, growth64 = B754_finite s m e h).
  { destruct growth64 as [s | s | | s m e h] eqn:G; [ | | | eauto]; exfalso; assert (B : B2SF growth64 = S754_finite false 7205759403792794 (-52)) by (vm_compute; reflexivity); rewrite G in B; discriminate B. }
  destruct y as [s | s | | s m e h] eqn:Ey; try discriminate. reflexivity || (destruct E as (s' & m & e & h & ->); reflexivity). destruct E as (s' & m & e & h & ->). reflexivity.
  rewrite <- Ey. assert (Fy : fin y) by (rewrite Ey; reflexivity). assert (Fg : fin growth64) by (destruct E as (s' & m' & e' & h' & ->); reflexivity). clear E.
  pose proof (Bmult_correct 53 1024 _ _ mode_NE growth64 y) as C. revert C; case Rlt_bool_spec; intros H0 C.
  apply fin_not_nan. destruct C as (_ & D & _). unfold fin, fmul. rewrite D, Fg, Fy. reflexivity. apply (over_not_nan _ _ C). Qed.
Lemma grow_in dt x y : good_interval dt -> in64 dt x -> in64 dt y -> in64 dt (enforce64 dt (fadd x (fmul growth64 (fsub x y)))).
Proof. intros G X Y E. destruct (X E) as [Fx _]. destruct (Y E) as [Fy _]. apply enforce64_in; [exact G | | exact E].
  apply fadd_not_nan. exact Fx. apply growth_not_nan, fsub_not_nan. exact Fx. apply fin_not_nan, Fy. Qed.

Lemma solve_loop64_cases f impl dt acc : good_interval dt -> forall fuel count flip b v,
  ymin b = f (xmin b) -> ymax b = f (xmax b) -> in64 dt (xmin b) -> in64 dt (xmax b) -> (2 <= count)%Z ->
  solve_loop64 fuel f impl dt acc count flip b = Ret v ->
  v = zero \/ (fin (f v) /\ Rabs (val (f v)) < tiny64 /\ in64 dt v) \/
  exists b' count', change64 f b' /\ in64 dt (xmin b') /\ in64 dt (xmax b') /\ (2 <= count' <= 1000)%Z /\ impl acc b' count' = Ret v.
Proof.
  intros G. induction fuel as [| fuel IH]; intros count flip b v Em EM Im IM Hc H. discriminate.
  cbn [solve_loop64] in H. unfold max_iter64 in H. destruct (Z.leb_spec count 1000) as [Lc | _]; [ | injection H as <-; left; reflexivity].
  destruct (fle (fmul (ymin b) (ymax b)) zero) eqn:P.
  - destruct (close64 (ymin b) zero) eqn:C1. { injection H as <-. rewrite Em in C1. apply close64_zero in C1. right; left. tauto. }
    destruct (close64 (ymax b) zero) eqn:C2. { injection H as <-. rewrite EM in C2. apply close64_zero in C2. right; left. tauto. }
    right; right. exists b, count. split; [ | split; [exact Im | split; [exact IM | split; [lia | exact H]]]].
    split. exact Em. split. exact EM. rewrite <- Em, <- EM. apply product_test; assumption.
  - cbv zeta in H. clear P.
    destruct (flt (fabs (ymin b)) (fabs (ymax b))). eapply IH; [ | | | | | exact H]; [reflexivity | exact EM | apply grow_in; assumption | exact IM | lia].
    destruct (flt (fabs (ymax b)) (fabs (ymin b))). eapply IH; [ | | | | | exact H]; [exact Em | reflexivity | exact Im | apply grow_in; assumption | lia].
    destruct flip; (eapply IH; [ | | | | | exact H]); [reflexivity | exact EM | apply grow_in; assumption | exact IM | lia | exact Em | reflexivity | exact Im | apply grow_in; assumption | lia].
Qed.

(** A returned value is the fallback 0.0, or the objective is numerically zero there, or the back-end
    returned it for a bracket whose ends lie in the enforced interval and where the objective has
    strictly different signs, with an accuracy of at least [f64::EPSILON]. *)
Theorem solve64_cases fuel f impl guess dt v : good_interval dt -> in64 dt guess -> is_nan (stepsize64 dt) = false ->
  solve64 fuel f impl guess dt = Ret v ->
  v = zero \/ (fin (f v) /\ Rabs (val (f v)) < tiny64 /\ in64 dt v) \/
  exists acc b count, change64 f b /\ in64 dt (xmin b) /\ in64 dt (xmax b) /\ (2 <= count <= 1000)%Z /\
    fle eps64 acc = true /\ (acc = eps64 \/ acc = accuracy64 dt) /\ impl acc b count = Ret v.
Proof.
  intros G I N H. unfold solve64 in H. destruct (flt zero (accuracy64 dt)) eqn:A; [ | discriminate]. simpl assertb in H. cbv zeta in H.
  destruct (close64 (f guess) zero) eqn:C. { injection H as <-. apply close64_zero in C. right; left. tauto. }
  assert (Acc : fle eps64 (fmax (accuracy64 dt) eps64) = true /\ (fmax (accuracy64 dt) eps64 = eps64 \/ fmax (accuracy64 dt) eps64 = accuracy64 dt)).
  { unfold fmax. destruct (accuracy64 dt) as [s | s | | s m e h] eqn:Ea; simpl is_nan; cbv iota.
    - destruct s; discriminate A.
    - destruct s; [discriminate A | ]. split; [reflexivity | right; reflexivity].
    - discriminate A.
    - change (is_nan eps64) with false. cbv iota. rewrite <- Ea in *. assert (Fa : fin (accuracy64 dt)) by (rewrite Ea; reflexivity).
      destruct (flt (accuracy64 dt) eps64) eqn:L. split; [reflexivity | left; reflexivity]. split; [ | right; reflexivity].
      apply not_true_iff_false in L. rewrite flt_R in L by (apply eps64_R || exact Fa). apply fle_R; [apply eps64_R | exact Fa | lra]. }
  assert (St : forall x, (x = fsub guess (stepsize64 dt) \/ x = fadd guess (stepsize64 dt)) -> in64 dt (enforce64 dt x)).
  { intros x X E. apply enforce64_in; [exact G | | exact E]. destruct (I E) as [Fg _]. destruct X as [-> | ->]; [apply fsub_not_nan | apply fadd_not_nan]; assumption. }
  match type of H with solve_loop64 _ _ _ _ ?a _ _ ?bb = _ => destruct (fun h1 h2 h3 h4 h5 => solve_loop64_cases f impl dt a G fuel 2%Z true bb v h1 h2 h3 h4 h5 H) as [Z | [Z | (b & c & S1 & S2 & S3 & S4 & S5)]] end.
  - destruct (flt zero (f guess)); reflexivity.
  - destruct (flt zero (f guess)); reflexivity.
  - destruct (flt zero (f guess)); [apply St; left; reflexivity | exact I].
  - destruct (flt zero (f guess)); [exact I | apply St; right; reflexivity].
  - lia.
  - left; exact Z.
  - right; left; exact Z.
  - right; right. exists (fmax (accuracy64 dt) eps64), b, c. tauto.
Qed.
Print Assumptions solve64_cases.

(** ** bisection: the returned point and a point of the other sign enclose a sign change *)
Lemma upow k : (k <= 1000)%nat -> (1 + u) ^ k <= 2.
Proof. intros K. pose proof u_pos as U.
  assert (H : forall n, INR n * u <= 1 -> (1 + u) ^ n * (1 - INR n * u) <= 1).
  { induction n; intros B. simpl. lra. rewrite S_INR in *. assert (X := pos_INR n). specialize (IHn ltac:(nra)). simpl pow.
    assert (0 < (1 + u) ^ n) by (apply pow_lt; lra). assert ((1 + u) * (1 - (INR n + 1) * u) <= 1 - INR n * u) by nra.
    replace ((1 + u) * (1 + u) ^ n * (1 - (INR n + 1) * u)) with ((1 + u) ^ n * ((1 + u) * (1 - (INR n + 1) * u))) by ring.
    eapply Rle_trans. 2: exact IHn. apply Rmult_le_compat_l; lra. }
  assert (B : INR k * u <= / 2).
  { apply Rle_trans with (INR 1000 * u). apply Rmult_le_compat_r. lra. apply le_INR, K. unfold u. replace (INR 1000) with (IZR 1000) by (rewrite INR_IZR_INZ; reflexivity).
    change (2 ^ 53)%Z with (2 * 4503599627370496)%Z. rewrite mult_IZR. rewrite Rinv_mult. assert (IZR 1000 * / IZR 4503599627370496 <= 1). { apply Rmult_le_reg_r with (IZR 4503599627370496). apply IZR_lt; reflexivity. rewrite Rmult_assoc, Rinv_l, Rmult_1_r, Rmult_1_l. apply IZR_le. discriminate. apply not_0_IZR. discriminate. } lra. }
  specialize (H k ltac:(lra)). assert (0 < (1 + u) ^ k) by (apply pow_lt; lra). nra. Qed.

Lemma two_nz : val two <> 0. Proof. rewrite (proj2 two_R). lra. Qed.
Lemma fmt_bpow e : (-1074 <= e)%Z -> fmt (bpow radix2 e).
Proof. intros H. apply generic_format_bpow. unfold FLT_exp. lia. Qed.
Lemma rnd_abs_le x e : (-1074 <= e)%Z -> Rabs x <= bpow radix2 e -> Rabs (rnd x) <= bpow radix2 e.
Proof. intros H X. apply Rabs_le. apply Rabs_le_inv in X. split. apply rnd_ge. apply fmt_opp, fmt_bpow, H. lra. apply rnd_le_fmt. apply fmt_bpow, H. lra. Qed.
Lemma eta_le m : (-1000 <= m)%Z -> eta <= u * (bpow radix2 m / 2).
Proof. intros M. unfold eta, u. change (/ IZR (2 ^ 53)) with (bpow radix2 (-53)). assert (bpow radix2 (-1074) <= bpow radix2 (-53 + m)) by (apply bpow_le; lia). rewrite bpow_plus in H. lra. Qed.

(** one halving step *)
Lemma half_step root dx m k P0 : fin root -> fin dx -> (-1000 <= m <= 1000)%Z -> Rabs (val dx) <= bpow radix2 m ->
  Rabs (val root) + bpow radix2 m <= (1 + u) ^ k * P0 -> (1 + u) ^ k * P0 <= bpow radix2 1000 ->
  let dx' := fdiv dx two in let mid := fadd root dx' in
  fin dx' /\ fin mid /\ Rabs (val dx') <= bpow radix2 (m - 1) /\
  Rabs (val mid) + bpow radix2 (m - 1) <= (1 + u) ^ S k * P0 /\ Rabs (val root) + bpow radix2 (m - 1) <= (1 + u) ^ S k * P0 /\
  Rabs (val dx' - val dx / 2) <= u * ((1 + u) ^ k * P0) /\ Rabs (val mid - (val root + val dx')) <= u * ((1 + u) ^ k * P0).
Proof.
  intros Fr Fd M D P T. cbv zeta. set (P1 := (1 + u) ^ k * P0) in *. pose proof u_pos as U. pose proof u_small as U4.
  assert (Bm : bpow radix2 m = 2 * bpow radix2 (m - 1)). { replace m with (1 + (m - 1))%Z at 1 by ring. rewrite bpow_plus. reflexivity. }
  pose proof (bpow_gt_0 radix2 (m - 1)) as Bp. pose proof (Rabs_pos (val root)) as Rp.
  assert (Hd : Rabs (val dx / val two) <= bpow radix2 (m - 1)). { rewrite (proj2 two_R). unfold Rdiv. rewrite Rabs_mult, (Rabs_pos_eq (/ 2)) by lra. lra. }
  assert (Hd' : Rabs (rnd (val dx / val two)) <= bpow radix2 (m - 1)) by (apply rnd_abs_le; [lia | exact Hd]).
  destruct (fdiv_R dx two Fd two_nz) as [Fd' Ed']. { eapply Rle_lt_trans. exact Hd'. apply bpow_lt. lia. }
  assert (Dx' : Rabs (val (fdiv dx two)) <= bpow radix2 (m - 1)) by (rewrite Ed'; exact Hd').
  assert (Sum : Rabs (val root + val (fdiv dx two)) <= P1 - bpow radix2 (m - 1)). { eapply Rle_trans. apply Rabs_triang. lra. }
  assert (Ov : Rabs (rnd (val root + val (fdiv dx two))) <= bpow radix2 1000) by (apply rnd_abs_le; [lia | lra]).
  destruct (fadd_R root (fdiv dx two) Fr Fd') as [Fm Em]. { eapply Rle_lt_trans. exact Ov. apply bpow_lt. reflexivity. }
  assert (Err : Rabs (val (fadd root (fdiv dx two)) - (val root + val (fdiv dx two))) <= u * (P1 - bpow radix2 (m - 1))).
  { rewrite Em. destruct (rnd_plus_err (val root) (val (fdiv dx two)) (val_fmt _) (val_fmt _)) as (e & He & ->).
    replace ((val root + val (fdiv dx two)) * (1 + e) - (val root + val (fdiv dx two))) with ((val root + val (fdiv dx two)) * e) by ring.
    rewrite Rabs_mult, Rmult_comm. apply Rmult_le_compat; try apply Rabs_pos; assumption. }
  assert (uP : 0 <= u * bpow radix2 (m - 1)) by (apply Rmult_le_pos; lra).
  split. exact Fd'. split. exact Fm. split. exact Dx'. simpl pow. replace ((1 + u) * (1 + u) ^ k * P0) with (P1 + u * P1) by (unfold P1; ring).
  assert (0 <= u * P1) by (apply Rmult_le_pos; lra).
  split. { assert (Rabs (val (fadd root (fdiv dx two))) <= Rabs (val root + val (fdiv dx two)) + u * (P1 - bpow radix2 (m - 1))).
    { replace (val (fadd root (fdiv dx two))) with ((val root + val (fdiv dx two)) + (val (fadd root (fdiv dx two)) - (val root + val (fdiv dx two)))) by ring. eapply Rle_trans. apply Rabs_triang. lra. }
    lra. }
  split. lra. split; [ | lra].
  rewrite Ed'. destruct (rnd_err (val dx / val two)) as (e & h & He & Hh & ->). rewrite (proj2 two_R) in *.
  replace (val dx / 2 * (1 + e) + h - val dx / 2) with (val dx / 2 * e + h) by ring. eapply Rle_trans. apply Rabs_triang. rewrite Rabs_mult.
  pose proof (eta_le m ltac:(lia)). assert (Rabs (val dx / 2) * Rabs e <= bpow radix2 (m - 1) * u) by (apply Rmult_le_compat; try apply Rabs_pos; assumption).
  assert (u * bpow radix2 m <= u * P1) by (apply Rmult_le_compat_l; lra). rewrite Bm in *. lra.
Qed.

Definition enclosed64 (f : f64 -> f64) (acc : f64) (n : Z) (v : f64) : Prop :=
  (exists h, fin h /\ fle (f h) zero = false /\ Rabs (val h - val v) <= val acc + bpow radix2 (n - 38)) \/
  (fin (f v) /\ Rabs (val (f v)) < tiny64) \/
  (exists m, fin m /\ fin (f m) /\ 0 < val (f m) < tiny64).

Lemma bisect64_encloses f acc n P0 : fin acc -> fle eps64 acc = true -> (0 <= n <= 900)%Z -> 0 <= P0 <= 5 * bpow radix2 n ->
  forall j fuel count k root dx h, (1 <= k)%nat -> (Z.of_nat k + Z.of_nat j <= n + 56)%Z -> (j < fuel)%nat ->
  fin root -> fin dx -> fin h -> fle (f root) zero = true -> fle (f h) zero = false ->
  Rabs (val dx) <= bpow radix2 (Z.of_nat j - 52) -> Rabs (val root) + bpow radix2 (Z.of_nat j - 52) <= (1 + u) ^ k * P0 ->
  Rabs (val h - (val root + val dx)) <= INR k * (3 * u * ((1 + u) ^ k * P0)) ->
  exists v, bisect_loop64 fuel f acc count root dx = Ret v /\ ((v = zero /\ (1000 < count + Z.of_nat j)%Z) \/ (fin v /\ fle (f v) zero = true /\ enclosed64 f acc n v)).
Proof.
  intros Fa Ea Hn HP. pose proof u_pos as U. pose proof u_small as U4.
  assert (Ea' : bpow radix2 (-52) <= val acc). { apply fle_R in Ea; [ | apply eps64_R | exact Fa]. rewrite (proj2 eps64_R) in Ea. exact Ea. }
  assert (Bn : 1 <= bpow radix2 n). { change 1 with (bpow radix2 0). apply bpow_le. lia. }
  assert (G : forall i, (i <= 1000)%nat -> (1 + u) ^ i * P0 <= 10 * bpow radix2 n).
  { intros i Hi. pose proof (upow i Hi). assert (0 < (1 + u) ^ i) by (apply pow_lt; lra). apply Rle_trans with (2 * P0). apply Rmult_le_compat_r; lra. lra. }
  assert (G' : forall i, (i <= 1000)%nat -> (1 + u) ^ i * P0 <= bpow radix2 1000).
  { intros i Hi. eapply Rle_trans. apply G, Hi. apply Rle_trans with (bpow radix2 4 * bpow radix2 900). change (bpow radix2 4) with 16.
    assert (bpow radix2 n <= bpow radix2 900) by (apply bpow_le; lia). lra. rewrite <- bpow_plus. apply bpow_le. lia. }
  assert (Fin : forall i, (1 <= i <= 960)%nat -> INR i * (3 * u * ((1 + u) ^ i * P0)) <= bpow radix2 (n - 38)).
  { intros i Hi. assert (INR i <= 960). { replace 960 with (INR 960) by (rewrite INR_IZR_INZ; reflexivity). apply le_INR. lia. }
    pose proof (G i ltac:(lia)). pose proof (pos_INR i). assert (0 <= (1 + u) ^ i * P0) by (apply Rmult_le_pos; [apply pow_le; lra | lra]).
    apply Rle_trans with (960 * (3 * u * (10 * bpow radix2 n))). apply Rmult_le_compat; try lra. apply Rmult_le_pos; lra. apply Rmult_le_compat_l; lra.
    unfold u. change (/ IZR (2 ^ 53)) with (bpow radix2 (-53)). replace (n - 38)%Z with (15 + (-53 + n))%Z by ring. rewrite 2!bpow_plus. change (bpow radix2 15) with 32768.
    pose proof (bpow_gt_0 radix2 (-53)). assert (0 < bpow radix2 (-53) * bpow radix2 n) by (apply Rmult_lt_0_compat; lra). lra. }
  induction j as [| j IH]; intros fuel count k root dx h K KJ FU Fr Fd Fh Rr Rh D P E; (destruct fuel as [| fuel]; [lia | ]); cbn [bisect_loop64]; unfold max_iter64;
    (destruct (Z.leb_spec count 1000); [ | exists zero; split; [reflexivity | left; split; [reflexivity | lia]]]); cbv zeta.
  all: match type of D with _ <= bpow radix2 ?m => destruct (half_step root dx m k P0 Fr Fd ltac:(lia) D P ltac:(apply G'; lia)) as (Fd' & Fm & D' & Pm & Pr & E1 & E2) end.
  all: set (dx' := fdiv dx two) in *; set (mid := fadd root dx') in *; pose proof (G k ltac:(lia)) as Gk.
  all: assert (Mono : INR k * (3 * u * ((1 + u) ^ k * P0)) + 3 * u * ((1 + u) ^ k * P0) <= INR (S k) * (3 * u * ((1 + u) ^ S k * P0))).
  1, 3: rewrite S_INR; simpl pow; assert (0 <= (1 + u) ^ k * P0) by (apply Rmult_le_pos; [apply pow_le; lra | lra]); pose proof (pos_INR k);
      set (Q := (1 + u) ^ k * P0) in *; replace ((1 + u) * (1 + u) ^ k * P0) with (Q + u * Q) by (unfold Q; ring);
      assert (0 <= u * Q) by (apply Rmult_le_pos; lra); assert (0 <= u * (u * Q)) by (apply Rmult_le_pos; lra);
      assert (0 <= INR k * (u * (u * Q))) by (apply Rmult_le_pos; assumption); lra.
  all: pose proof (Fin (S k) ltac:(lia)) as FSk.
  (* the error of the far end after the step, in the two cases *)
  all: assert (Eu : Rabs (val h - (val mid + val dx')) <= INR (S k) * (3 * u * ((1 + u) ^ S k * P0))).
  1, 3: replace (val h - (val mid + val dx')) with ((val h - (val root + val dx)) + - (val mid - (val root + val dx')) + - (2 * (val dx' - val dx / 2))) by field;
      eapply Rle_trans; [apply Rabs_triang | ]; rewrite Rabs_Ropp, Rabs_mult, (Rabs_pos_eq 2) by lra; pose proof (Rabs_triang (val h - (val root + val dx)) (- (val mid - (val root + val dx')))) as TT; rewrite Rabs_Ropp in TT.
  1, 2: lra.
  all: assert (Em : Rabs (val mid - (val root + val dx')) <= INR (S k) * (3 * u * ((1 + u) ^ S k * P0))).
  1, 3: assert (0 <= (1 + u) ^ k * P0) by (apply Rmult_le_pos; [apply pow_le; lra | lra]);
      set (Q := (1 + u) ^ k * P0) in *; assert (0 <= u * Q) by (apply Rmult_le_pos; lra); assert (0 <= INR k * (3 * u * Q)) by (apply Rmult_le_pos; [apply pos_INR | lra]); lra.
  all: assert (Stop : flt (fabs dx') acc = true -> enclosed64 f acc n (if fle (f mid) zero then mid else root)).
  1, 3: intros L; apply flt_R in L; [ | apply fabs_fin, Fd' | exact Fa]; rewrite fabs_R in L; left; destruct (fle (f mid) zero) eqn:Fz;
    [ exists h; split; [exact Fh | split; [exact Rh | ]]; replace (val h - val mid) with ((val h - (val mid + val dx')) + val dx') by ring
    | exists mid; split; [exact Fm | split; [exact Fz | ]]; replace (val mid - val root) with ((val mid - (val root + val dx')) + val dx') by ring ];
    (eapply Rle_trans; [apply Rabs_triang | lra]).
  all: assert (Root' : fin (if fle (f mid) zero then mid else root) /\ fle (f (if fle (f mid) zero then mid else root)) zero = true) by (destruct (fle (f mid) zero) eqn:Fz; split; assumption).
  all: assert (Cl : close64 (f mid) zero = true -> enclosed64 f acc n (if fle (f mid) zero then mid else root)).
  1, 3: intros L; apply close64_zero in L; destruct L as [L1 L2]; right; destruct (fle (f mid) zero) eqn:Fz; [left; split; assumption | right; exists mid; split; [exact Fm | split; [exact L1 | ]]];
    apply not_true_iff_false in Fz; rewrite (fle_R _ zero L1 eq_refl) in Fz; change (val zero) with 0 in Fz; rewrite Rabs_pos_eq in L2 by lra; lra.
  - assert (L : flt (fabs dx') acc = true). { apply flt_R; [apply fabs_fin, Fd' | exact Fa | ]. rewrite fabs_R. eapply Rle_lt_trans. exact D'. eapply Rlt_le_trans. 2: exact Ea'. apply bpow_lt. lia. }
    rewrite L. simpl orb. cbv iota. eexists. split. reflexivity. right. split. apply Root'. split. apply Root'. apply Stop, L.
  - destruct (flt (fabs dx') acc) eqn:L; simpl orb; cbv iota. { eexists. split. reflexivity. right. split. apply Root'. split. apply Root'. apply Stop, eq_refl. }
    destruct (close64 (f mid) zero) eqn:C. { eexists. split. reflexivity. right. split. apply Root'. split. apply Root'. apply Cl, eq_refl. }
    replace (Z.of_nat (S j) - 52 - 1)%Z with (Z.of_nat j - 52)%Z in * by lia.
    destruct (fle (f mid) zero) eqn:Fz.
    + replace (count + Z.of_nat (S j))%Z with (count + 1 + Z.of_nat j)%Z by lia. apply (IH fuel (count + 1)%Z (S k) mid dx' h); try assumption; lia.
    + replace (count + Z.of_nat (S j))%Z with (count + 1 + Z.of_nat j)%Z by lia. apply (IH fuel (count + 1)%Z (S k) root dx' mid); try assumption; lia.
Qed.

Lemma pos_not_le x : flt zero x = true -> fle x zero = false.
Proof. destruct x as [[] | [] | | [] m e h]; cbn; intros; try discriminate; reflexivity. Qed.
Lemma neg_le x : flt x zero = true -> fle x zero = true.
Proof. destruct x as [[] | [] | | [] m e h]; cbn; intros; try discriminate; reflexivity. Qed.
Lemma neg_not_pos x : flt x zero = true -> flt zero x = false.
Proof. destruct x as [[] | [] | | [] m e h]; cbn; intros; try discriminate; reflexivity. Qed.

(** For a bracket with a sign change whose ends are at most [2^n] in magnitude, bisection returns a
    finite point where the objective is at most zero, unless the iterations left are fewer than
    [n + 54] and it returns the fallback 0.0.  A point where the objective is not at most zero (it is
    positive or NaN) lies within the accuracy plus a rounding error of [2^(n-38)]; or the objective is
    numerically zero at the returned point, or (see [bisection_early_exit_refuted]) at another point. *)
Theorem bisection64_encloses fuel f acc b count n : (1000 <= fuel)%nat -> change64 f b -> fin (xmin b) -> fin (xmax b) ->
  fin acc -> fle eps64 acc = true -> (0 <= n <= 900)%Z -> Rabs (val (xmin b)) <= bpow radix2 n -> Rabs (val (xmax b)) <= bpow radix2 n ->
  exists v, bisection_impl64 fuel f acc b count = Ret v /\
    ((v = zero /\ (1000 < count + n + 53)%Z) \/ (fin v /\ fle (f v) zero = true /\ enclosed64 f acc n v)).
Proof.
  intros FU (Ym & YM & Ch) F1 F2 Fa Ea Hn B1 B2. pose proof u_pos as U. pose proof u_small as U4.
  assert (Gen : forall r h, fin r -> fin h -> Rabs (val r) <= bpow radix2 n -> Rabs (val h) <= bpow radix2 n -> fle (f r) zero = true -> fle (f h) zero = false ->
    exists v, bisect_loop64 fuel f acc count r (fsub h r) = Ret v /\ ((v = zero /\ (1000 < count + n + 53)%Z) \/ (fin v /\ fle (f v) zero = true /\ enclosed64 f acc n v))).
  { intros r h Fr Fh Br Bh Rr Rh. pose proof (bpow_gt_0 radix2 n) as Bp.
    assert (N1 : bpow radix2 (n + 1) = 2 * bpow radix2 n) by (rewrite bpow_plus; change (bpow radix2 1) with 2; ring).
    assert (N2 : bpow radix2 (n + 2) = 4 * bpow radix2 n) by (rewrite bpow_plus; change (bpow radix2 2) with 4; ring).
    assert (Sm : Rabs (val h - val r) <= bpow radix2 (n + 1)). { unfold Rminus. eapply Rle_trans. apply Rabs_triang. rewrite Rabs_Ropp. lra. }
    assert (Dm : Rabs (rnd (val h - val r)) <= bpow radix2 (n + 1)) by (apply rnd_abs_le; [lia | exact Sm]).
    destruct (fsub_R h r Fh Fr) as [Fd Ed]. { eapply Rle_lt_trans. exact Dm. apply bpow_lt. lia. }
    destruct (rnd_minus_err (val h) (val r) (val_fmt _) (val_fmt _)) as (e & He & R).
    replace (count + n + 53)%Z with (count + Z.of_nat (Z.to_nat (n + 53)))%Z by lia.
    apply (bisect64_encloses f acc n (3 * bpow radix2 n) Fa Ea Hn ltac:(lra) (Z.to_nat (n + 53)) fuel count 1 r (fsub h r) h); try assumption; try lia.
    - rewrite Z2Nat.id by lia. replace (n + 53 - 52)%Z with (n + 1)%Z by ring. rewrite Ed. exact Dm.
    - rewrite Z2Nat.id by lia. replace (n + 53 - 52)%Z with (n + 1)%Z by ring. simpl pow. rewrite N1. assert (0 <= u * bpow radix2 n) by (apply Rmult_le_pos; lra). lra.
    - rewrite Ed, R. simpl INR. simpl pow. replace (val h - (val r + (val h - val r) * (1 + e))) with (- ((val h - val r) * e)) by ring. rewrite Rabs_Ropp, Rabs_mult.
      assert (Rabs (val h - val r) * Rabs e <= bpow radix2 (n + 1) * u) by (apply Rmult_le_compat; try apply Rabs_pos; assumption).
      assert (0 <= u * bpow radix2 n) by (apply Rmult_le_pos; lra). assert (0 <= u * (u * bpow radix2 n)) by (apply Rmult_le_pos; lra). rewrite N1 in *. lra. }
  unfold bisection_impl64. rewrite Ym. destruct Ch as [[Ca Cb] | [Ca Cb]].
  - rewrite Ca. apply Gen; try assumption. apply neg_le, Ca. apply pos_not_le, Cb.
  - replace (flt (f (xmin b)) zero) with false. 2:{ symmetry. apply not_true_iff_false. intros X. apply neg_not_pos in X. congruence. }
    apply Gen; try assumption. apply neg_le, Cb. apply pos_not_le, Ca.
Qed.
Print Assumptions bisection64_encloses.
Example bisection64_encloses_case : let f := fun x => fsub (fmul x x) two in let b := Bracket64 one two (f one) (f two) in
  change64 f b /\ Rabs (val (xmin b)) <= bpow radix2 1 /\ Rabs (val (xmax b)) <= bpow radix2 1 /\
  match bisection_impl64 1000 f (lit 1 (-40)) b 2 with Ret v => fle (f v) zero && flt (fabs (fsub v (lit 6369051672525773 (-52)))) (lit 1 (-39)) | _ => false end = true.
Proof. cbv zeta. split; [split; [reflexivity | split; [reflexivity | left; split; vm_compute; reflexivity]] | ].
  cbn [xmin xmax]. rewrite (proj2 one_R), (proj2 two_R). change (bpow radix2 1) with 2. split; [rewrite Rabs_pos_eq; lra | ]. split; [rewrite Rabs_pos_eq; lra | ]. vm_compute. reflexivity. Qed.

(** The whole of [solve] with bisection, an enforced interval and a finite accuracy. *)
Corollary bisection64_solve fuel f guess dt n v : (1000 <= fuel)%nat -> good_interval dt -> enforced64 dt = true -> in64 dt guess -> is_nan (stepsize64 dt) = false ->
  fin (accuracy64 dt) -> (0 <= n <= 900)%Z -> - bpow radix2 n <= val (lo64 dt) -> val (hi64 dt) <= bpow radix2 n ->
  bisection64 fuel f guess dt = Ret v ->
  v = zero \/ (fin (f v) /\ Rabs (val (f v)) < tiny64) \/
  exists acc, (acc = eps64 \/ acc = accuracy64 dt) /\ fin v /\ fle (f v) zero = true /\ enclosed64 f acc n v.
Proof.
  intros FU G En I Ns Fa Hn Bl Bh H. destruct (solve64_cases fuel f _ guess dt v G I Ns H) as [Z | [Z | (acc & b & c & Ch & X & Y & _ & Le & Ca & K)]]. auto. right; left; tauto.
  destruct (X En) as [F1 R1]. destruct (Y En) as [F2 R2].
  destruct (bisection64_encloses fuel f acc b c n) as (w & W & P); try assumption.
  - destruct Ca as [-> | ->]. apply eps64_R. exact Fa.
  - apply Rabs_le. lra.
  - apply Rabs_le. lra.
  - rewrite K in W. injection W as <-. destruct P as [[P _] | P]. auto. right; right. exists acc. tauto.
Qed.
Print Assumptions bisection64_solve.

(** ** what fails *)
(** An objective that is NaN everywhere has the "root" 0.0: the fallback is not distinguishable. *)
Lemma solve_loop64_nan f impl dt acc : (forall x, is_nan (f x) = true) -> forall fuel count flip b, is_nan (ymin b) = true -> is_nan (ymax b) = true ->
  (2 <= count)%Z -> (1002 - count <= Z.of_nat fuel)%Z -> (1 <= fuel)%nat -> solve_loop64 fuel f impl dt acc count flip b = Ret zero.
Proof.
  intros N. induction fuel as [| fuel IH]; intros count flip b Nm NM H0 H1 H2. lia. cbn [solve_loop64]. unfold max_iter64 in *. destruct (Z.leb_spec count 1000); [ | reflexivity]. cbv zeta.
  destruct b as [xa xb ya yb]. cbn [xmin xmax ymin ymax] in *. destruct ya, yb; try discriminate. change (fle (fmul B754_nan B754_nan) zero) with false. change (flt (fabs B754_nan) (fabs B754_nan)) with false. cbv iota.
  destruct flip; apply IH; cbn [xmin xmax ymin ymax]; auto; lia.
Qed.
Theorem nan_objective64_refuted fuel f g guess dt : (1000 <= fuel)%nat -> flt zero (accuracy64 dt) = true -> (forall x, is_nan (f x) = true) ->
  bisection64 fuel f guess dt = Ret zero /\ newton64 fuel f g guess dt = Ret zero /\ brent64 fuel f guess dt = Ret zero.
Proof.
  intros FU A N. assert (K : forall impl, solve64 fuel f impl guess dt = Ret zero).
  { intros impl. unfold solve64. rewrite A. simpl assertb. cbv zeta. pose proof (N guess) as Ng. destruct (f guess) eqn:E; try discriminate. change (close64 B754_nan zero) with false. change (flt zero B754_nan) with false. cbv iota.
    apply solve_loop64_nan; cbn [xmin xmax ymin ymax]; auto; lia. }
  split; [ | split]; apply K.
Qed.
Print Assumptions nan_objective64_refuted.

Lemma bisect_mono f acc : forall fuel fuel' count root dx v, bisect_loop64 fuel f acc count root dx = Ret v -> (fuel <= fuel')%nat -> bisect_loop64 fuel' f acc count root dx = Ret v.
Proof. induction fuel as [| fuel IH]; intros [| fuel'] count root dx v H L; try discriminate; try lia. cbn [bisect_loop64] in *. destruct (count <=? max_iter64)%Z; [ | exact H]. cbv zeta in *.
  destruct (_ || _); [exact H | ]. apply IH; [exact H | lia]. Qed.
Lemma solve_mono f impl impl' dt acc : (forall b c v, impl acc b c = Ret v -> impl' acc b c = Ret v) -> forall fuel fuel' count flip b v,
  solve_loop64 fuel f impl dt acc count flip b = Ret v -> (fuel <= fuel')%nat -> solve_loop64 fuel' f impl' dt acc count flip b = Ret v.
Proof. intros M. induction fuel as [| fuel IH]; intros [| fuel'] count flip b v H L; try discriminate; try lia. cbn [solve_loop64] in *. destruct (count <=? max_iter64)%Z; [ | exact H]. cbv zeta in *.
  destruct (fle _ _). { destruct (close64 _ _); [exact H | ]. destruct (close64 _ _); [exact H | ]. apply M, H. }
  destruct (flt _ _). { apply IH; [exact H | lia]. } destruct (flt _ _). { apply IH; [exact H | lia]. } destruct flip; (apply IH; [exact H | lia]). Qed.
Lemma bisection64_mono fuel fuel' f guess dt v : bisection64 fuel f guess dt = Ret v -> (fuel <= fuel')%nat -> bisection64 fuel' f guess dt = Ret v.
Proof. unfold bisection64, solve64. intros H L. destruct (flt zero (accuracy64 dt)); [ | discriminate]. simpl assertb in *. cbv zeta in *. destruct (close64 (f guess) zero); [exact H | ].
  eapply solve_mono; [ | exact H | exact L]. intros b c w K. unfold bisection_impl64 in *. destruct (flt (ymin b) zero); (eapply bisect_mono; [exact K | exact L]). Qed.

(** Bisection may leave the enforced interval: the width of the bracket is rounded up, and the
    halved steps add up to the rounded width. *)
Definition out_hi : f64 := lit 11 (-46).
Definition out_dt : rdata64 := RData64 (lit 2048 0) (lit 1 (-52)) (lit (-1024) 0) out_hi true.
Theorem bisection64_interval_refuted : exists f guess dt, good_interval dt /\ enforced64 dt = true /\ in64 dt guess /\
  forall fuel, (1000 <= fuel)%nat -> exists v, bisection64 fuel f guess dt = Ret v /\ fin v /\ val (hi64 dt) < val v.
Proof.
  exists (fun x => if feq x out_hi then one else lit (-1) 0), out_hi, out_dt.
  assert (R1 : fin (lit (-1024) 0) /\ val (lit (-1024) 0) = -1024) by (apply int_lit; cbn; lia).
  assert (R2 : fin out_hi /\ 0 < val out_hi). { assert (Fo : fin out_hi) by reflexivity. split. exact Fo. apply (pos_R out_hi Fo). vm_compute. reflexivity. }
  split; [ | split; [reflexivity | split]].
  - intros _. unfold out_dt. cbn [lo64 hi64]. split. apply R1. split. apply R2. rewrite (proj2 R1). lra.
  - intros _. unfold out_dt. cbn [lo64 hi64]. split. apply R2. rewrite (proj2 R1). lra.
  - intros fuel FU.
    assert (T : match bisection64 1000 (fun x => if feq x out_hi then one else lit (-1) 0) out_hi out_dt with Ret v => is_finite v && flt out_hi v | _ => false end = true) by (vm_compute; reflexivity).
    destruct (bisection64 1000 _ _ _) as [v | | ] eqn:E; try discriminate T. apply andb_prop in T as [Fv L]. exists v. split. eapply bisection64_mono; [exact E | exact FU]. split. exact Fv.
    apply flt_R in L; [exact L | apply R2 | exact Fv].
Qed.
Print Assumptions bisection64_interval_refuted.

(** A bracket of width 2^1023 is not exhausted in 1000 halvings: the fallback 0.0 is returned although
    the only sign change is at 1. *)
Definition wide_dt : rdata64 := RData64 (lit 1 1023) (lit 1 (-52)) (lit (-1) 1022) (lit 1 1022) true.
Theorem bisection64_wide_refuted : exists f guess dt, good_interval dt /\ enforced64 dt = true /\ in64 dt guess /\
  (forall x, f x = if flt x one then lit (-1) 0 else one) /\ forall fuel, (1000 <= fuel)%nat -> bisection64 fuel f guess dt = Ret zero.
Proof.
  set (f := fun x => if flt x one then lit (-1) 0 else one). exists f, (lit 1 1022), wide_dt.
  assert (B : bpow radix2 1022 < fmaxR) by (apply bpow_lt; lia).
  assert (G : fmt (bpow radix2 1022)) by (apply fmt_bpow; lia).
  assert (R1 : fin (lit 1 1022) /\ val (lit 1 1022) = bpow radix2 1022). { pose proof (lit_R 1 1022) as X. rewrite Rmult_1_l, (rnd_id _ G), Rabs_pos_eq in X by apply bpow_ge_0. apply X, B. }
  assert (R2 : fin (lit (-1) 1022) /\ val (lit (-1) 1022) = - bpow radix2 1022). { pose proof (lit_R (-1) 1022) as X. replace (-1 * bpow radix2 1022) with (- bpow radix2 1022) in X by ring. rewrite (rnd_id _ (fmt_opp _ G)), Rabs_Ropp, Rabs_pos_eq in X by apply bpow_ge_0. apply X, B. }
  pose proof (bpow_gt_0 radix2 1022) as P. split; [ | split; [reflexivity | split; [ | split; [reflexivity | ]]]].
  - intros _. unfold wide_dt. cbn [lo64 hi64]. split. apply R2. split. apply R1. rewrite (proj2 R1), (proj2 R2). lra.
  - intros _. unfold wide_dt. cbn [lo64 hi64]. split. apply R1. rewrite (proj2 R1), (proj2 R2). lra.
  - intros fuel FU. apply (bisection64_mono 1000); [ | exact FU].
    assert (T : match bisection64 1000 f (lit 1 1022) wide_dt with Ret v => Some (B2SF v) | _ => None end = Some (B2SF zero)) by (vm_compute; reflexivity).
    destruct (bisection64 1000 f (lit 1 1022) wide_dt) as [v | | ]; try discriminate T. f_equal. apply B2SF_inj. injection T as T. exact T.
Qed.
Print Assumptions bisection64_wide_refuted.
