(** Property C113: gradient descent in binary64. *)
From Coq Require Import ZArith Reals List Bool Lia Lra Psatz.
From Flocq Require Import Core.Core IEEE754.BinarySingleNaN.
From Verif Require Import Res F64Model F64RootModel F64Base F64Order F64Root F64Sum F64Quad F64Day F64FdGrid F64Knn F64GdModel.
Import ListNotations.
Local Open Scope R_scope.

(** The constructor panics exactly on a tolerance that is not above zero; a NaN is one. *)
Theorem gd64_new lr n t : (gd_new64 lr n (Some t) = Panic <-> ~ (num t /\ 0 < ext t)) /\
  (num t -> 0 < ext t -> gd_new64 lr n (Some t) = Ret (Gd64 lr n (Some t))) /\ gd_new64 lr n None = Ret (Gd64 lr n None).
Proof.
  assert (E : flt zero t = true <-> num t /\ 0 < ext t).
  { split.
    - intros H. assert (N : num t) by (destruct t; try reflexivity; discriminate H). split; [exact N|]. apply (flt_ext zero t eq_refl N) in H. exact H.
    - intros [N H]. apply (flt_ext zero t eq_refl N). exact H. }
  unfold gd_new64, assertb. destruct (flt zero t) eqn:Q.
  - destruct (proj1 E eq_refl) as [N P]. split; [split; [discriminate|intros H; exfalso; apply H; auto]|auto].
  - split; [split; [intros _ H; apply E in H; discriminate|reflexivity]|]. split; [|reflexivity]. intros N P. assert (false = true) by (apply E; auto). discriminate.
Qed.
Print Assumptions gd64_new.
Example gd64_new_nv : gd_new64 one 3 (Some nan) = Panic /\ gd_new64 one 3 (Some zero) = Panic /\ gd_new64 one 3 (Some (lit 1 (-1074))) <> Panic.
Proof. split; [reflexivity|]. split; [reflexivity|]. unfold gd_new64. replace (flt zero (lit 1 (-1074))) with true by (vm_compute; reflexivity). discriminate. Qed.

(** The tolerance used is the one given, and 2^-26 by default. *)
Theorem gd64_tolerance lr n t : gtol64 (Gd64 lr n (Some t)) = t /\ fin (gtol64 (Gd64 lr n None)) /\ val (gtol64 (Gd64 lr n None)) = / 2 ^ 26.
Proof.
  split; [reflexivity|]. split; [vm_compute; reflexivity|]. assert (E : gtol64 (Gd64 lr n None) = lit 1 (-26)) by (apply B2SF_inj; vm_compute; reflexivity). rewrite E.
  assert (V : B2SF (lit 1 (-26)) = SpecFloat.S754_finite false 4503599627370496 (-78)) by (vm_compute; reflexivity).
  unfold val. rewrite <- SF2R_B2SF, V. cbn -[IZR]. unfold F2R. cbn -[IZR]. lra.
Qed.
Print Assumptions gd64_tolerance.

(** The point after [j] steps, none of them checked for stationarity. *)
Fixpoint descend (f : list f64 -> res (f64 * list f64)) (lr : f64) (j : nat) (x : list f64) : res (list f64) :=
  match j with O => Ret x | S i => let! y := descend f lr i x in let! (v, g) := f y in Ret (update64 lr y g) end.

(** Invariant of the loop. *)
Lemma loop_inv neg f lr tol x0 left : forall k r0 r, descend f lr k x0 = Ret (argmin64 r0) -> its64 r0 = k ->
  (k = 0%nat -> min64 r0 = zero) -> (forall i, k = S i -> exists y v g, descend f lr i x0 = Ret y /\ f y = Ret (v, g) /\ stationary64 neg g tol = false /\ min64 r0 = v) ->
  (forall i, (i < k)%nat -> exists y v g, descend f lr i x0 = Ret y /\ f y = Ret (v, g) /\ stationary64 neg g tol = false) ->
  gd_loop64 neg f lr tol left k r0 = Ret r ->
  exists j, (k <= j <= k + left)%nat /\ descend f lr j x0 = Ret (argmin64 r) /\
    ((j < k + left)%nat /\ its64 r = S j /\ (exists v g, f (argmin64 r) = Ret (v, g) /\ stationary64 neg g tol = true) \/ j = (k + left)%nat /\ its64 r = j) /\
    (forall i, (i < j)%nat -> exists y v g, descend f lr i x0 = Ret y /\ f y = Ret (v, g) /\ stationary64 neg g tol = false) /\
    (j = 0%nat -> min64 r = zero) /\ (forall i, j = S i -> exists y v g, descend f lr i x0 = Ret y /\ f y = Ret (v, g) /\ min64 r = v).
Proof.
  induction left as [|left IH]; intros k r0 r D K Z V B H.
  - cbn in H. injection H as <-. exists k. split; [lia|]. split; [exact D|]. split; [right; split; [lia|exact K]|]. split; [exact B|]. split; [exact Z|]. intros i E. destruct (V i E) as (y & v & g & A1 & A2 & _ & A3). exists y, v, g. auto.
  - cbn in H. destruct (f (argmin64 r0)) as [[v g]| |] eqn:EF; try discriminate H. cbn in H. destruct (stationary64 neg g tol) eqn:ST.
    + injection H as <-. exists k. cbn. split; [lia|]. split; [exact D|]. split; [left; split; [lia|]; split; [reflexivity|]; exists v, g; auto|]. split; [exact B|]. split; [exact Z|]. intros i E. destruct (V i E) as (y & w & h & A1 & A2 & _ & A3). exists y, w, h. auto.
    + assert (D' : descend f lr (S k) x0 = Ret (update64 lr (argmin64 r0) g)). { cbn. rewrite D. cbn. rewrite EF. reflexivity. }
      apply IH in H; [|exact D'|reflexivity|discriminate| |].
      * destruct H as (j & J1 & J2 & J3 & J4 & J5). exists j. split; [lia|]. split; [exact J2|]. split; [|split; [exact J4|exact J5]]. destruct J3 as [(A & W)|(A & W)]; [left; split; [lia|exact W]|right; split; [lia|exact W]].
      * intros i E. injection E as <-. exists (argmin64 r0), v, g. auto.
      * intros i L. destruct (Nat.eq_dec i k) as [->|NE]; [exists (argmin64 r0), v, g; auto|apply B; lia].
Qed.

(** The answer is the point after some number [j] of steps.  Either the gradient there passes the test and
    the count is [j + 1], or all the iterations were used.  No earlier point passed the test.  The reported
    minimum is the objective at the point before the answer, and 0.0 when no step was taken. *)
Theorem gd64_orbit neg c f x0 r : optimize64 neg c f x0 = Ret r ->
  exists j, (j <= maxit64 c)%nat /\ descend f (lr64 c) j x0 = Ret (argmin64 r) /\
    ((j < maxit64 c)%nat /\ its64 r = S j /\ (exists v g, f (argmin64 r) = Ret (v, g) /\ stationary64 neg g (gtol64 c) = true) \/ j = maxit64 c /\ its64 r = j) /\
    (forall i, (i < j)%nat -> exists y v g, descend f (lr64 c) i x0 = Ret y /\ f y = Ret (v, g) /\ stationary64 neg g (gtol64 c) = false) /\
    (j = 0%nat -> min64 r = zero) /\ (forall i, j = S i -> exists y v g, descend f (lr64 c) i x0 = Ret y /\ f y = Ret (v, g) /\ min64 r = v).
Proof.
  intros H. destruct (loop_inv neg f (lr64 c) (gtol64 c) x0 (maxit64 c) 0 (GdRes64 x0 zero 0) r eq_refl eq_refl (fun _ => eq_refl)) as (j & J & W); try (intros; discriminate); try (intros; lia); [exact H|].
  exists j. split; [lia|exact W].
Qed.
Print Assumptions gd64_orbit.
(** halving from one down to 2^-27, the first point below the square root of 2^-52 *)
Example gd64_orbit_nv : match optimize64 false (Gd64 half64 100 None) (fun x => Ret (zero, x)) [one] with Ret r => (its64 r, map (fun a => feq a (lit 1 (-27))) (argmin64 r)) | _ => (0%nat, []) end = (28%nat, [true]).
Proof. vm_compute. reflexivity. Qed.

(** ** The stationarity test *)
Lemma fsum_fold neg l : fsum neg (map sq64 l) = fold_left (fun acc x => fadd acc (sq64 x)) l (B754_zero neg).
Proof. unfold fsum. generalize (B754_zero neg : f64). induction l as [|x l IH]; intros a; [reflexivity|]. cbn. apply IH. Qed.
Lemma sq_near x : fin (sq64 x) -> near 3 (2 * eta) (val (sq64 x)) (val x ^ 2).
Proof.
  intros F0. unfold sq64 in *. destruct (fmul_fin _ _ F0) as (FX & _ & V & _). pose proof eta_pos as N. pose proof u_pos as U. pose proof u_tiny as UT. rewrite V.
  pose proof (rnd_abs_err (val x * val x)) as ER. assert (P : 0 <= val x * val x) by nra. rewrite (Rabs_pos_eq _ P) in ER. apply Rabs_le_inv in ER.
  pose proof (rnd_ge 0 (val x * val x) (generic_format_0 _ _) P) as G. unfold near. replace (val x ^ 2) with (val x * val x) by ring. set (X := val x * val x) in *. set (s := rnd X) in *. clearbody X s.
  pose proof bb_1 as B1. assert (BB : bb <= bb ^ 3) by (assert (1 <= bb * bb) by nra; cbn; nra).
  assert (UB : 1 + u <= bb) by (unfold bb; lra). assert (K : 1 <= (1 - u) * bb) by (unfold bb; nra).
  split; [exact G|]. split; [exact P|]. split.
  - assert (A : X * (1 - u) <= s + eta) by lra. assert (A' : X * ((1 - u) * bb) <= (s + eta) * bb) by nra. assert (X <= X * ((1 - u) * bb)) by nra. assert (eta * bb <= 2 * eta) by (unfold bb; nra). assert (s * bb <= s * bb ^ 3) by nra. lra.
  - assert (X * (1 + u) <= X * bb ^ 3) by nra. lra.
Qed.
Definition true_norm (g : list f64) : R := sqrt (fold_right Rplus 0 (map (fun x => val x ^ 2) g)).
Lemma sum_nan l a : a = nan -> fold_left (fun acc x => fadd acc (sq64 x)) l a = nan.
Proof. intros ->. induction l as [|x l IH]; [reflexivity|]. cbn. exact IH. Qed.

(** A gradient that passes the test is small: its exact norm is below the tolerance, up to a relative slack
    of about three units of 2^-53 per coordinate and 2^-500.  One that fails it, with a finite computed norm,
    is no smaller than the tolerance up to the same slack. *)
Theorem gd64_stationary neg g tol n : (length g <= n)%nat -> (Z.of_nat n <= 2 ^ 40)%Z -> fin tol ->
  (stationary64 neg g tol = true -> true_norm g <= slack n * val tol + bpow radix2 (-500)) /\
  (stationary64 neg g tol = false -> fin (gnorm64 neg g) -> val tol <= slack n * true_norm g + bpow radix2 (-500)).
Proof.
  intros L SM FT. pose proof (norm_near sq64 (fun x => val x ^ 2) sq_near neg g n L SM) as NN. cbv zeta in NN. rewrite <- fsum_fold in NN. fold (gnorm64 neg g) in NN. unfold terms in NN. fold (true_norm g) in NN.
  pose proof u_pos as U. assert (S1 : 1 <= slack n) by (unfold slack; pose proof (pos_INR n); nra). unfold stationary64. split.
  - intros H. assert (FN : fin (gnorm64 neg g)).
    { assert (C : pos64 (gnorm64 neg g) \/ gnorm64 neg g = nan). { destruct (num_dec (gnorm64 neg g)) as [N|N]; [|right; destruct (gnorm64 neg g); try (exfalso; apply N; reflexivity); reflexivity].
        left. apply nn_pos; [|exact N]. unfold gnorm64. apply nn_sqrt, nn_sum. apply Forall_forall. intros y I. apply in_map_iff in I. destruct I as (z & <- & _). apply nn_sq. }
      destruct C as [C|C]; [|rewrite C in H; discriminate H]. destruct (gnorm64 neg g) as [s|s| |s m e B]; try reflexivity; [|discriminate C]. destruct s; [discriminate C|]. destruct tol as [t|t| |t m e B]; try discriminate FT; try destruct t; discriminate H. }
    destruct (NN FN) as (P & A & _). apply (flt_R _ _ FN FT) in H. nra.
  - intros H FN. destruct (NN FN) as (P & _ & B). destruct (Rlt_or_le (val (gnorm64 neg g)) (val tol)) as [Q|Q]; [apply (flt_R _ _ FN FT) in Q; congruence|lra].
Qed.
Print Assumptions gd64_stationary.
Example gd64_stationary_nv : stationary64 false [lit 3 (-30); lit 4 (-30)] (fsqrt eps64) = true /\ stationary64 false [lit 3 0; lit 4 0] (lit 5 0) = false.
Proof. split; vm_compute; reflexivity. Qed.

(** A NaN in the gradient is never stationary: the loop cannot stop on it. *)
Theorem gd64_nan_gradient neg g tol : In nan g -> stationary64 neg g tol = false.
Proof.
  intros H. unfold stationary64, gnorm64. rewrite fsum_fold. replace (fold_left _ g _) with (nan : f64); [reflexivity|]. symmetry. generalize (B754_zero neg : f64).
  induction g as [|x g IH]; [destruct H|]. intros a. cbn. destruct H as [->|H]; [apply sum_nan; destruct a; reflexivity|apply IH, H].
Qed.
Print Assumptions gd64_nan_gradient.
Example gd64_nan_gradient_nv : stationary64 false [zero; nan] (B754_infinity false) = false /\ stationary64 false [zero; zero] (B754_infinity false) = true.
Proof. split; vm_compute; reflexivity. Qed.

(** A coordinate that starts as a NaN is a NaN in the answer, for every objective. *)
Lemma update_nan lr : forall x g i, nth_error x i = Some nan -> nth_error (update64 lr x g) i = Some nan.
Proof. induction x as [|a x IH]; intros g i H; [destruct i; discriminate H|]. destruct g as [|b g]; [exact H|]. destruct i as [|i]; cbn in *; [injection H as ->; reflexivity|apply IH, H]. Qed.
Theorem gd64_nan neg c f x0 r i : optimize64 neg c f x0 = Ret r -> nth_error x0 i = Some nan -> nth_error (argmin64 r) i = Some nan.
Proof.
  intros H N. destruct (gd64_orbit _ _ _ _ _ H) as (j & _ & D & _). revert D. generalize (argmin64 r). induction j as [|j IH]; intros y D; cbn in D; [injection D as <-; exact N|].
  destruct (descend f (lr64 c) j x0) as [z| |] eqn:E; try discriminate D. cbn in D. destruct (f z) as [[v g]| |]; try discriminate D. injection D as <-. apply update_nan, IH. reflexivity.
Qed.
Print Assumptions gd64_nan.
Example gd64_nan_nv : match optimize64 false (Gd64 half64 7 None) (fun x => Ret (zero, [one; one])) [nan; one] with Ret r => (its64 r, map is_nan (argmin64 r)) | _ => (0%nat, []) end = (7%nat, [true; false]).
Proof. vm_compute. reflexivity. Qed.

(** The number of coordinates is kept. *)
Lemma update_len lr : forall x g, length (update64 lr x g) = length x.
Proof. induction x as [|a x IH]; intros [|b g]; cbn; try reflexivity. rewrite IH. reflexivity. Qed.
Theorem gd64_dimension neg c f x0 r : optimize64 neg c f x0 = Ret r -> length (argmin64 r) = length x0 /\ (its64 r <= maxit64 c)%nat.
Proof.
  intros H. destruct (gd64_orbit _ _ _ _ _ H) as (j & J & D & K & _). split; [|destruct K as [(K1 & K2 & _)|(K1 & K2)]; lia].
  clear K J H. revert D. generalize (argmin64 r). induction j as [|j IH]; intros y D; cbn in D; [injection D as <-; reflexivity|].
  destruct (descend f (lr64 c) j x0) as [z| |] eqn:E; try discriminate D. cbn in D. destruct (f z) as [[v g]| |]; try discriminate D. injection D as <-. rewrite update_len. apply IH. reflexivity.
Qed.
Print Assumptions gd64_dimension.

(** ** Stalling *)
(** When a step rounds back to the point it started from, the loop spends all its iterations there. *)
Theorem gd64_stall neg c f x v g : f x = Ret (v, g) -> update64 (lr64 c) x g = x -> stationary64 neg g (gtol64 c) = false -> (0 < maxit64 c)%nat ->
  optimize64 neg c f x = Ret (GdRes64 x v (maxit64 c)).
Proof.
  intros EF EU ES M. unfold optimize64. assert (L : forall left k m, (0 < left)%nat -> gd_loop64 neg f (lr64 c) (gtol64 c) left k (GdRes64 x m k) = Ret (GdRes64 x v (k + left))).
  { induction left as [|left IH]; intros k m P; [lia|]. cbn. rewrite EF. cbn. rewrite ES, EU. destruct left as [|left]; [cbn; rewrite Nat.add_1_r; reflexivity|]. rewrite IH by lia. replace (S k + S left)%nat with (k + S (S left))%nat by lia. reflexivity. }
  apply (L (maxit64 c) 0%nat zero M).
Qed.
Print Assumptions gd64_stall.
(** So the answer can keep a gradient far above the tolerance for any number of iterations, where each exact
    step would move the point by one. *)
Theorem gd64_stall_refuted : exists f x, forall neg n, (0 < n)%nat -> optimize64 neg (Gd64 one n None) f x = Ret (GdRes64 x zero n) /\ (forall y, exists v, f y = Ret (v, [one])) /\ Forall fin x /\ val (gtol64 (Gd64 one n None)) < 1.
Proof.
  exists (fun _ => Ret (zero, [one])), [lit 1 60]. intros neg n P. split.
  - apply (gd64_stall neg (Gd64 one n None) (fun _ => Ret (zero, [one])) [lit 1 60] zero [one]); [reflexivity| | |exact P].
    + cbn [update64 lr64]. f_equal. apply B2SF_inj. vm_compute. reflexivity.
    + unfold gtol64. cbn [tol64]. destruct neg; vm_compute; reflexivity.
  - split; [intros y; eexists; reflexivity|]. split; [repeat constructor|]. unfold gtol64. cbn [tol64]. rewrite <- (proj2 one_R). apply flt_R; vm_compute; reflexivity.
Qed.
Print Assumptions gd64_stall_refuted.
(** An infinite tolerance is accepted, and the reported minimum is then 0.0 whatever the objective. *)
Theorem gd64_minimum_refuted : exists t c, gd_new64 one 5 (Some t) = Ret c /\ forall neg w, optimize64 neg c (fun _ => Ret (w, [one])) [zero] = Ret (GdRes64 [zero] zero 1).
Proof. exists (B754_infinity false), (Gd64 one 5 (Some (B754_infinity false))). split; [reflexivity|]. intros neg w. unfold optimize64. cbn. replace (stationary64 neg [one] (B754_infinity false)) with true; [reflexivity|]. destruct neg; vm_compute; reflexivity. Qed.
Print Assumptions gd64_minimum_refuted.

(** ** Convergence *)
(** every coordinate of the point is finite and within [e] of the target *)
Definition close (e : R) (x : list f64) (X : list R) : Prop := Forall2 (fun a A => fin a /\ Rabs (val a - A) <= e) x X.
Lemma close_mono e e' x X : e <= e' -> close e x X -> close e' x X.
Proof. intros L H. induction H as [|a A x X [F0 H] T IH]; constructor; [split; [exact F0|lra]|exact IH]. Qed.

Lemma step_close lr a b A G e q eps M : fin lr -> fin a -> fin b -> 0 <= val lr -> 0 <= e -> 0 <= q <= 1 -> 0 <= eps -> Rabs A <= M ->
  Rabs (val a - A) <= e -> Rabs (val b - G) <= eps -> Rabs (val a - val lr * G - A) <= q * e -> e + M + val lr * eps <= bpow radix2 1000 ->
  fin (fsub a (fmul lr b)) /\ Rabs (val (fsub a (fmul lr b)) - A) <= (q + 4 * u) * e + (2 * (val lr * eps) + 2 * u * M + 2 * eta).
Proof.
  intros FL FA FB L0 E0 [Q0 Q1] EP AM HA HB HS BIG. pose proof u_pos as U. pose proof u_tiny as UT. pose proof eta_pos as N. pose proof eta_tiny as NT.
  set (l := val lr) in *. set (d := l * eps) in *. assert (D0 : 0 <= d) by (unfold d; nra). assert (M0 : 0 <= M) by (pose proof (Rabs_pos A); lra).
  assert (PG : Rabs (l * val b - l * G) <= d). { rewrite <- Rmult_minus_distr_l, Rabs_mult, (Rabs_pos_eq l L0). unfold d. apply Rmult_le_compat_l; assumption. }
  assert (QE : q * e <= e) by nra.
  assert (PB : Rabs (l * val b) <= 2 * e + d). { apply Rabs_le. apply Rabs_le_inv in PG, HA, HS. lra. }
  pose proof (rnd_abs_err (l * val b)) as RP. set (P := l * val b) in *. assert (RP' : Rabs (rnd P - P) <= u * (2 * e + d) + eta) by nra. clear RP.
  assert (LIM : 16 * bpow radix2 1000 + 16 <= fmaxR). { assert (E : fmaxR = 16777216 * bpow radix2 1000) by (unfold fmaxR; change 1024%Z with (24 + 1000)%Z; rewrite bpow_plus; f_equal). pose proof (bpow_le radix2 0 1000 ltac:(lia)) as O. change (bpow radix2 0) with 1 in O. rewrite E. set (w := bpow radix2 1000) in *. clearbody w. lra. }
  assert (W : 0 <= bpow radix2 1000) by apply bpow_ge_0.
  assert (BP : Rabs (rnd P) < fmaxR). { apply Rabs_def1; apply Rabs_le_inv in RP', PB; nra. }
  destruct (fmul_R lr b FL FB BP) as [FP VP]. fold l in VP. fold P in VP.
  assert (ZX : Rabs (val a - rnd P - A) <= q * e + (d + (u * (2 * e + d) + eta))). { apply Rabs_le. apply Rabs_le_inv in PG, HS, RP'. lra. }
  assert (RZ : Rabs (rnd (val a - rnd P) - (val a - rnd P)) <= u * Rabs (val a - rnd P)). { unfold Rminus at 2 3 4. apply rnd_sum_err; [apply val_fmt|]. apply fmt_opp. rewrite <- VP. apply val_fmt. }
  assert (ZB : Rabs (val a - rnd P) <= M + (q * e + (d + (u * (2 * e + d) + eta)))). { apply Rabs_le. apply Rabs_le_inv in ZX, AM. lra. }
  set (z := val a - rnd P) in *. assert (RZ' : Rabs (rnd z - z) <= u * (M + (q * e + (d + (u * (2 * e + d) + eta))))) by (eapply Rle_trans; [exact RZ|apply Rmult_le_compat_l; [lra|exact ZB]]).
  assert (TOT : Rabs (rnd z - A) <= (q + 4 * u) * e + (2 * d + 2 * u * M + 2 * eta)).
  { eapply Rle_trans; [replace (rnd z - A) with ((rnd z - z) + (z - A)) by ring; apply Rabs_triang|]. eapply Rle_trans; [apply Rplus_le_compat; [exact RZ'|exact ZX]|].
    assert (u * (q * e) <= u * e) by nra. assert (Y0 : 0 <= u * (2 * e + d)) by (apply Rmult_le_pos; lra). set (y := u * (2 * e + d)) in *. assert (u * y <= y / 4) by (clear - U UT Y0; nra). assert (YE : y = 2 * (u * e) + u * d) by (unfold y; ring). assert (u * d <= d / 4) by nra. assert (u * eta <= eta) by nra. assert (0 <= u * e) by nra. assert (0 <= u * M) by nra. lra. }
  assert (BZ : Rabs (rnd z) < fmaxR). { apply Rabs_le_inv in TOT, AM. assert ((q + 4 * u) * e <= 2 * e) by nra. assert (2 * u * M <= M) by nra. apply Rabs_def1; lra. }
  assert (ZV : z = val a - val (fmul lr b)) by (unfold z; rewrite VP; reflexivity). rewrite ZV in BZ, TOT.
  destruct (fsub_R a (fmul lr b) FA FP BZ) as [FC VC]. split; [exact FC|]. rewrite VC. exact TOT.
Qed.

(** The objective computes a gradient within [eps] of one whose exact step contracts by [q] towards the
    target, on the ball of radius [B] in the largest coordinate. *)
Definition contracts (f : list f64 -> res (f64 * list f64)) (lr : f64) (X : list R) (q eps B : R) : Prop :=
  forall x, close B x X -> exists v g, f x = Ret (v, g) /\ length g = length x /\
    forall i a b A, nth_error x i = Some a -> nth_error g i = Some b -> nth_error X i = Some A ->
      fin b /\ exists G, Rabs (val b - G) <= eps /\ forall e, 0 <= e <= B -> close e x X -> Rabs (val a - val lr * G - A) <= q * e.

Lemma update_close lr e q eps M : fin lr -> 0 <= val lr -> 0 <= e -> 0 <= q <= 1 -> 0 <= eps -> e + M + val lr * eps <= bpow radix2 1000 ->
  forall x X g, close e x X -> Forall (fun A => Rabs A <= M) X -> length g = length x ->
  (forall i a b A, nth_error x i = Some a -> nth_error g i = Some b -> nth_error X i = Some A -> fin b /\ exists G, Rabs (val b - G) <= eps /\ Rabs (val a - val lr * G - A) <= q * e) ->
  close ((q + 4 * u) * e + (2 * (val lr * eps) + 2 * u * M + 2 * eta)) (update64 lr x g) X.
Proof.
  intros FL L0 E0 Q EP BIG x X g C. revert g. induction C as [|a A x X [FA HA] C IH]; intros g AM LEN H; [constructor|].
  destruct g as [|b g]; [discriminate LEN|]. cbn. inversion AM as [|? ? AM1 AM2]; subst. constructor.
  - destruct (H 0%nat a b A eq_refl eq_refl eq_refl) as (FB & G & G1 & G2). apply (step_close lr a b A G e q eps M); assumption.
  - apply IH; [exact AM2|cbn in LEN; lia|]. intros i a' b' A' I1 I2 I3. apply (H (S i)); assumption.
Qed.

Lemma loop_total neg (P : list f64 -> Prop) f lr tol : (forall x, P x -> exists v g, f x = Ret (v, g) /\ P (update64 lr x g)) ->
  forall left k r, P (argmin64 r) -> exists r', gd_loop64 neg f lr tol left k r = Ret r'.
Proof.
  intros H. induction left as [|left IH]; intros k r PR; [eexists; reflexivity|]. cbn. destruct (H _ PR) as (v & g & E & PU). rewrite E. cbn. destruct (stationary64 neg g tol); [eexists; reflexivity|]. apply IH. exact PU.
Qed.

(** Starting in the ball, the loop never panics, and after [j] steps every coordinate is within
    [q'^j B + N / (1 - q')] of the target: the contraction factor is [q' = q + 4 * 2^-53], and the floor [N]
    comes from the error of the gradient and from rounding the coordinates. *)
Theorem gd64_converges neg c f x0 X q eps M B : let lr := val (lr64 c) in let q' := q + 4 * u in let N := 2 * (lr * eps) + 2 * u * M + 2 * eta in
  fin (lr64 c) -> 0 <= lr -> 0 <= q -> 0 <= eps -> 0 <= B -> 0 <= M -> Forall (fun A => Rabs A <= M) X -> q' < 1 -> q' * B + N <= B -> B + M + lr * eps <= bpow radix2 1000 ->
  contracts f (lr64 c) X q eps B -> close B x0 X ->
  exists r j, optimize64 neg c f x0 = Ret r /\ (j = maxit64 c /\ its64 r = j \/ (j < maxit64 c)%nat /\ its64 r = S j /\ exists v g, f (argmin64 r) = Ret (v, g) /\ stationary64 neg g (gtol64 c) = true) /\
    close (q' ^ j * B + N / (1 - q')) (argmin64 r) X.
Proof.
  intros lr q' N FL L0 Q0 EP B0 M0 AM Q1 INV BIG CT C0. pose proof u_pos as U. pose proof eta_pos as E0.
  assert (D0 : 0 <= lr * eps) by nra. assert (UM : 0 <= u * M) by nra. assert (N0 : 0 <= N) by (unfold N; lra). assert (QP : 0 <= q') by (unfold q'; lra).
  assert (QQ : 0 <= q <= 1) by (unfold q' in Q1; lra).
  assert (ST : forall e x, 0 <= e <= B -> close e x X -> exists v g, f x = Ret (v, g) /\ close (q' * e + N) (update64 (lr64 c) x g) X).
  { intros e x EB CE. destruct (CT x (close_mono e B x X (proj2 EB) CE)) as (v & g & EF & LG & H). exists v, g. split; [exact EF|].
    apply update_close; try assumption; [lra|fold lr; lra|]. intros i a b A I1 I2 I3. destruct (H i a b A I1 I2 I3) as (FB & G & G1 & G2). split; [exact FB|]. exists G. split; [exact G1|]. apply G2; assumption. }
  destruct (loop_total neg (fun x => close B x X) f (lr64 c) (gtol64 c)) with (left := maxit64 c) (k := 0%nat) (r := GdRes64 x0 zero 0) as [r R].
  { intros x CX. destruct (ST B x ltac:(lra) CX) as (v & g & EF & CU). exists v, g. split; [exact EF|]. apply (close_mono (q' * B + N)); assumption. }
  { exact C0. }
  change (optimize64 neg c f x0 = Ret r) in R. destruct (gd64_orbit _ _ _ _ _ R) as (j & J & D & K & _). exists r, j. split; [exact R|]. split; [destruct K as [K|K]; auto|].
  assert (RAD : forall i y, descend f (lr64 c) i x0 = Ret y -> exists e, 0 <= e <= B /\ e <= q' ^ i * B + N / (1 - q') /\ close e y X).
  { assert (F0 : 0 <= N / (1 - q')) by (apply Rmult_le_pos; [exact N0|]; apply Rlt_le, Rinv_0_lt_compat; lra). induction i as [|i IH]; intros y DY.
    - cbn in DY. injection DY as <-. exists B. split; [lra|]. split; [cbn; lra|exact C0].
    - cbn in DY. destruct (descend f (lr64 c) i x0) as [z| |]; try discriminate DY. destruct (IH z eq_refl) as (e & EB & EL & CE). destruct (ST e z EB CE) as (v & g & EF & CU). cbn in DY. rewrite EF in DY. injection DY as <-.
      exists (q' * e + N). split; [split; nra|]. split; [|exact CU]. assert (FX : q' * (N / (1 - q')) + N = N / (1 - q')) by (field; lra). assert (q' * e <= q' * (q' ^ i * B + N / (1 - q'))) by (apply Rmult_le_compat_l; assumption). cbn [pow]. lra. }
  destruct (RAD j _ D) as (e & _ & EL & CE). apply (close_mono e); assumption.
Qed.
Print Assumptions gd64_converges.

(** Halving: the objective x^2 / 2 with learning rate 1/2 contracts by 1/2 towards zero on the unit ball. *)
Example gd64_converges_nv : let f := fun x => Ret (zero, x) in contracts f half64 [0] (1 / 2) 0 1 /\ close 1 [one] [0] /\ (1 / 2 + 4 * u < 1) /\ (1 / 2 + 4 * u) * 1 + (2 * (val half64 * 0) + 2 * u * 0 + 2 * eta) <= 1.
Proof.
  pose proof u_pos as U. pose proof u_tiny as UT. pose proof eta_tiny as ET. pose proof (proj2 half64_R) as HR. intros f. split; [|split; [|lra]].
  - intros x C. exists zero, x. split; [reflexivity|]. split; [reflexivity|]. intros i a b A I1 I2 I3. rewrite I1 in I2. injection I2 as <-. inversion C as [|a' A' x' X' [FA HA] C' EX EQ]; subst. inversion C'; subst.
    destruct i as [|i]; [|destruct i; discriminate I3]. cbn in I1, I3. injection I1 as ->. injection I3 as <-. split; [exact FA|]. exists (val a). split; [rewrite Rminus_diag_eq, Rabs_R0 by reflexivity; lra|].
    intros e EB CE. inversion CE as [|? ? ? ? [_ HE] _]; subst. rewrite HR. replace (val a - / 2 * val a - 0) with (/ 2 * (val a - 0)) by field. rewrite Rabs_mult, (Rabs_pos_eq (/ 2)) by lra. lra.
  - constructor; [|constructor]. split; [reflexivity|]. rewrite (proj2 one_R), Rminus_0_r, Rabs_R1. lra.
Qed.
