(** Analysis used for the implied volatility of IvModel.v: the ratio of the
    normal distribution function to its density, its derivatives and its
    asymptotic series, and the exact normalised Black function. Nothing here
    mentions the code. *)
From Coq Require Import Reals Lra Lia Psatz Arith.
From Coquelicot Require Import Coquelicot.
From Verif Require Import SpecialFns BsmProofs.
Open Scope R_scope.

(** ** Taylor's formula for an explicit chain of derivatives *)
Lemma chain_derive_n (F : nat -> R -> R) : (forall k z, is_derive (F k) z (F (S k) z)) ->
  forall n z, Derive_n (F 0%nat) n z = F n z.
Proof.
  intros H. induction n; intros z; [reflexivity|]. simpl. rewrite (Derive_ext _ (F n)) by exact IHn. apply is_derive_unique, H.
Qed.
Lemma chain_ex_derive_n (F : nat -> R -> R) : (forall k z, is_derive (F k) z (F (S k) z)) ->
  forall n z, ex_derive_n (F 0%nat) n z.
Proof.
  intros H n z. destruct n; [exact I|]. simpl. apply (ex_derive_ext (F n)).
  - intros t. symmetry. apply chain_derive_n, H.
  - eexists. apply H.
Qed.
Lemma taylor_chain (F : nat -> R -> R) : (forall k z, is_derive (F k) z (F (S k) z)) ->
  forall n a b, a < b -> exists c, a < c < b /\
  F 0%nat b = sum_f_R0 (fun k => (b - a) ^ k / INR (fact k) * F k a) n + (b - a) ^ (S n) / INR (fact (S n)) * F (S n) c.
Proof.
  intros H n a b L. destruct (Taylor_Lagrange (F 0%nat) n a b L) as (c & Hc & E).
  - intros. apply chain_ex_derive_n, H.
  - exists c. split; [exact Hc|]. rewrite E. f_equal.
    + apply sum_eq. intros. now rewrite chain_derive_n.
    + now rewrite chain_derive_n.
Qed.

(** the mean value theorem on an interval where the derivative exists *)
Lemma mvt (f df : R -> R) (a b : R) : a < b -> (forall z, a <= z <= b -> is_derive f z (df z)) ->
  exists c, a <= c <= b /\ f b - f a = df c * (b - a).
Proof.
  intros L D. destruct (MVT_gen f a b df) as (c & Hc & E).
  - intros x Hx. rewrite Rmin_left, Rmax_right in Hx by lra. apply D. lra.
  - intros x Hx. rewrite Rmin_left, Rmax_right in Hx by lra. apply continuity_pt_filterlim.
    apply (@ex_derive_continuous R_AbsRing R_NormedModule). eexists. apply D. lra.
  - rewrite Rmin_left, Rmax_right in Hc by lra. exists c. now split.
Qed.

(** a function that increases and vanishes at minus infinity is positive *)
Definition dec (f : R -> R) : Prop := forall k : nat, exists C, forall z, z <= -1 -> Rabs (f z) * (Rabs z) ^ k <= C.

Lemma dec_ext f g : (forall z, f z = g z) -> dec f -> dec g.
Proof. intros E H k. destruct (H k) as [C HC]. exists C. intros z Hz. rewrite <- E. now apply HC. Qed.
Lemma dec_plus f g : dec f -> dec g -> dec (fun z => f z + g z).
Proof.
  intros Hf Hg k. destruct (Hf k) as [A HA]. destruct (Hg k) as [B HB]. exists (A + B). intros z Hz.
  specialize (HA z Hz). specialize (HB z Hz). apply Rle_trans with ((Rabs (f z) + Rabs (g z)) * Rabs z ^ k); [|lra].
  apply Rmult_le_compat_r; [apply pow_le, Rabs_pos|apply Rabs_triang].
Qed.
Lemma dec_scal c f : dec f -> dec (fun z => c * f z).
Proof.
  intros Hf k. destruct (Hf k) as [A HA]. exists (Rabs c * A). intros z Hz. rewrite Rabs_mult, Rmult_assoc.
  apply Rmult_le_compat_l; [apply Rabs_pos|]. now apply HA.
Qed.
Lemma dec_z f : dec f -> dec (fun z => z * f z).
Proof.
  intros Hf k. destruct (Hf (S k)) as [A HA]. exists A. intros z Hz. specialize (HA z Hz). rewrite Rabs_mult.
  simpl in HA. lra.
Qed.
Lemma dec_increasing_pos_lt (f df : R -> R) (m : R) : (forall z, z < m -> is_derive f z (df z)) -> (forall z, z < m -> 0 < df z) ->
  dec f -> forall z, z < m -> 0 < f z.
Proof.
  intros D P H. assert (M : forall a b, a < b -> b < m -> f a < f b).
  { intros a b L Lm. destruct (mvt f df a b L) as (c & Hc & E); [intros; apply D; lra|]. assert (0 < df c) by (apply P; lra). nra. }
  intros z Hm. destruct (Rlt_dec 0 (f z)) as [L|L]; [exact L|exfalso].
  assert (N : f (z - 1) < 0) by (pose proof (M (z - 1) z); lra).
  destruct (H 1%nat) as [C HC]. set (c := - f (z - 1)) in *.
  set (w := Rmin (Rmin (z - 2) (-1)) (- (Rabs C / c + 1))).
  assert (w <= z - 2 /\ w <= -1 /\ w <= - (Rabs C / c + 1)) as (W1 & W2 & W3).
  { unfold w. pose proof (Rmin_l (Rmin (z - 2) (-1)) (- (Rabs C / c + 1))). pose proof (Rmin_r (Rmin (z - 2) (-1)) (- (Rabs C / c + 1))).
    pose proof (Rmin_l (z - 2) (-1)). pose proof (Rmin_r (z - 2) (-1)). lra. }
  assert (Fw : f w < - c) by (unfold c; rewrite Ropp_involutive; apply M; lra).
  specialize (HC w W2). simpl in HC. rewrite Rmult_1_r in HC.
  assert (c > 0) by (unfold c; lra). rewrite (Rabs_left (f w)) in HC by lra. rewrite (Rabs_left w) in HC by lra.
  assert (Rabs C < c * - w). { apply Rlt_le_trans with (c * (Rabs C / c + 1)); [|apply Rmult_le_compat_l; lra]. replace (c * (Rabs C / c + 1)) with (Rabs C + c) by (field; lra). lra. }
  pose proof (Rle_abs C). assert (c * - w <= - f w * - w) by (apply Rmult_le_compat_r; lra). lra.
Qed.
Lemma dec_increasing_pos (f df : R -> R) : (forall z, is_derive f z (df z)) -> (forall z, 0 < df z) -> dec f -> forall z, 0 < f z.
Proof. intros D P H z. apply (dec_increasing_pos_lt f df (z + 1)); auto. lra. Qed.
Lemma dec_bounded (f g : R -> R) B : (forall z, z <= -1 -> Rabs (g z) <= B) -> dec f -> dec (fun z => g z * f z).
Proof.
  intros Hg Hf k. destruct (Hf k) as [A HA]. exists (B * A). intros z Hz. rewrite Rabs_mult, Rmult_assoc.
  apply Rmult_le_compat; [apply Rabs_pos| |now apply Hg|now apply HA].
  apply Rmult_le_pos; [apply Rabs_pos|apply pow_le, Rabs_pos].
Qed.

Lemma exp_pow_bound u (n : nat) : 0 <= u -> u ^ n <= INR (fact n) * exp u.
Proof.
  intros Hu. revert u Hu. induction n; intros u Hu.
  - simpl. pose proof (exp_ineq1_le u). lra.
  - destruct (Rle_lt_or_eq_dec _ _ Hu) as [P|<-].
    2:{ rewrite pow_i by lia. pose proof (exp_pos 0). pose proof (pos_INR (fact (S n))). nra. }
    assert (forall v, 0 <= v -> v ^ S n <= INR (fact (S n)) * exp v) as G; [|now apply G].
    clear u Hu P. intros v Hv.
    destruct Hv as [Hv|<-]; [|rewrite pow_i by lia; pose proof (exp_pos 0); pose proof (pos_INR (fact (S n))); nra].
    destruct (mvt (fun y => INR (fact (S n)) * exp y - y ^ S n) (fun y => INR (fact (S n)) * exp y - INR (S n) * y ^ n) 0 v Hv) as (c & Hc & E).
    + intros x _. apply d_sub; [eapply isd_eq; [apply d_mul; [apply d_const|apply is_derive_exp]|cbv beta; ring]|].
      eapply isd_eq; [apply (is_derive_pow (fun y => y) (S n)), d_id|]. change (pred (S n)) with n. cbv beta; ring.
    + assert (0 <= INR (fact (S n)) * exp c - INR (S n) * c ^ n).
      { specialize (IHn c (proj1 Hc)). replace (fact (S n)) with (S n * fact n)%nat by reflexivity. rewrite mult_INR.
        pose proof (pos_INR (S n)). nra. }
      rewrite exp_0, (pow_i (S n)) in E by lia. pose proof (pos_INR (fact (S n))). nra.
Qed.

Lemma dec_gauss : dec (fun z => exp (- (z ^ 2 / 2))).
Proof.
  intros k. exists (INR (fact k) * 2 ^ k). intros z Hz. rewrite Rabs_right by (left; apply exp_pos).
  assert (A : (z ^ 2 / 2) ^ k <= INR (fact k) * exp (z ^ 2 / 2)) by (apply exp_pow_bound; nra).
  assert (B : Rabs z ^ k <= 2 ^ k * (z ^ 2 / 2) ^ k).
  { rewrite <- Rpow_mult_distr. apply pow_incr. rewrite Rabs_left by lra. nra. }
  pose proof (exp_pos (- (z ^ 2 / 2))). assert (C : exp (- (z ^ 2 / 2)) * exp (z ^ 2 / 2) = 1) by (rewrite <- exp_plus, <- exp_0; f_equal; ring).
  assert (0 < 2 ^ k) by (apply pow_lt; lra).
  apply Rle_trans with (exp (- (z ^ 2 / 2)) * (2 ^ k * (INR (fact k) * exp (z ^ 2 / 2)))).
  - apply Rmult_le_compat_l; [lra|]. eapply Rle_trans; [exact B|]. apply Rmult_le_compat_l; lra.
  - replace (exp (- (z ^ 2 / 2)) * (2 ^ k * (INR (fact k) * exp (z ^ 2 / 2)))) with (2 ^ k * INR (fact k) * (exp (- (z ^ 2 / 2)) * exp (z ^ 2 / 2))) by ring.
    rewrite C. lra.
Qed.
Lemma dec_npdf : dec npdf.
Proof.
  apply dec_ext with (fun z => / sqrt (2 * PI) * exp (- (z ^ 2 / 2))); [|apply dec_scal, dec_gauss].
  intros z. unfold npdf. f_equal. f_equal. field.
Qed.
Lemma dec_ncdf : dec ncdf.
Proof.
  intros k. destruct (dec_scal (2 / PI) _ dec_gauss k) as [C HC]. exists C. intros z Hz. specialize (HC z Hz).
  eapply Rle_trans; [|exact HC]. apply Rmult_le_compat_r; [apply pow_le, Rabs_pos|].
  pose proof (ncdf_bound z). rewrite Rabs_right by lra. pose proof (ncdf_tail (- z)) as T. rewrite Ropp_involutive in T.
  replace ((- z) ^ 2) with (z ^ 2) in T by ring. eapply Rle_trans; [apply T; lra|]. apply Rle_abs.
Qed.

(** ** The ratio of distribution function and density, and its derivatives *)
Definition Y (z : R) : R := ncdf z / npdf z.
Fixpoint Yd (n : nat) (z : R) : R :=
  match n with
  | O => Y z
  | S m => match m with O => 1 + z * Y z | S k => INR m * Yd k z + z * Yd m z end
  end.
Lemma Yd_0 z : Yd 0 z = Y z. Proof. reflexivity. Qed.
Lemma Yd_1 z : Yd 1 z = 1 + z * Y z. Proof. reflexivity. Qed.
Lemma Yd_SS n z : Yd (S (S n)) z = INR (S n) * Yd n z + z * Yd (S n) z. Proof. reflexivity. Qed.

Lemma Y_derive z : is_derive Y z (1 + z * Y z).
Proof.
  unfold Y. eapply isd_eq; [apply mills_derive|]. unfold hz. pose proof (npdf_pos z). field. lra.
Qed.
Lemma Yd_derive n z : is_derive (Yd n) z (Yd (S n) z).
Proof.
  revert z. induction n as [n IH] using lt_wf_ind. intros z. destruct n as [|[|n]].
  - apply Y_derive.
  - apply (isd_ext (fun z => 1 + z * Y z)); [reflexivity|].
    eapply isd_eq; [apply d_add; [apply d_const|apply d_mul; [apply d_id|apply Y_derive]]|].
    cbn -[Y]. cbv beta. ring.
  - apply (isd_ext (fun z => INR (S n) * Yd n z + z * Yd (S n) z)); [reflexivity|].
    eapply isd_eq; [apply d_add; [apply d_mul; [apply d_const|apply (IH n); lia]|apply d_mul; [apply d_id|apply (IH (S n)); lia]]|].
    rewrite (Yd_SS (S n)). rewrite (S_INR (S n)). ring.
Qed.

Definition Gn (n : nat) (z : R) : R := Yd n z * npdf z.
Lemma Gn_0 z : Gn 0 z = ncdf z. Proof. unfold Gn. rewrite Yd_0. unfold Y. pose proof (npdf_pos z). field. lra. Qed.
Lemma Gn_1 z : Gn 1 z = npdf z + z * ncdf z. Proof. unfold Gn. rewrite Yd_1. unfold Y. pose proof (npdf_pos z). field. lra. Qed.
Lemma Gn_SS n z : Gn (S (S n)) z = INR (S n) * Gn n z + z * Gn (S n) z. Proof. unfold Gn. rewrite Yd_SS. ring. Qed.
Lemma Gn_dec n : dec (Gn n).
Proof.
  induction n as [n IH] using lt_wf_ind. destruct n as [|[|n]].
  - apply dec_ext with ncdf; [intros; now rewrite Gn_0|apply dec_ncdf].
  - apply dec_ext with (fun z => npdf z + z * ncdf z); [intros; now rewrite Gn_1|]. apply dec_plus; [apply dec_npdf|apply dec_z, dec_ncdf].
  - apply dec_ext with (fun z => INR (S n) * Gn n z + z * Gn (S n) z); [intros; now rewrite Gn_SS|].
    apply dec_plus; [apply dec_scal, IH; lia|apply dec_z, IH; lia].
Qed.
Lemma Gn_derive n z : is_derive (Gn (S n)) z (INR (S n) * Gn n z).
Proof.
  unfold Gn. eapply isd_eq; [apply d_mul; [apply Yd_derive|apply npdf_derive]|]. rewrite Yd_SS. ring.
Qed.
(** every derivative of [Y] is positive, hence increasing *)
Lemma Gn_pos n z : 0 < Gn n z.
Proof.
  revert z. induction n; intros z; [rewrite Gn_0; apply ncdf_bound|].
  apply (dec_increasing_pos (Gn (S n)) (fun z => INR (S n) * Gn n z)).
  - apply Gn_derive.
  - intros x. apply Rmult_lt_0_compat; [apply lt_0_INR; lia|apply IHn].
  - apply Gn_dec.
Qed.
Lemma Yd_pos n z : 0 < Yd n z.
Proof. pose proof (Gn_pos n z) as G. pose proof (npdf_pos z). unfold Gn in G. nra. Qed.
Lemma Yd_mono n a b : a < b -> Yd n a < Yd n b.
Proof.
  intros L. destruct (mvt (Yd n) (Yd (S n)) a b L) as (c & _ & E); [intros; apply Yd_derive|]. pose proof (Yd_pos (S n) c). nra.
Qed.
Lemma Yd_le n a b : a <= b -> Yd n a <= Yd n b.
Proof. intros [L| ->]; [left; now apply Yd_mono|lra]. Qed.
(** to the left of zero the odd derivatives are dominated by the first *)
Lemma Yd_odd_bound n z : z <= 0 -> Yd (S (S n)) z <= INR (S n) * Yd n z.
Proof. intros H. rewrite Yd_SS. pose proof (Yd_pos (S n) z). nra. Qed.

(** ** The exact normalised Black function and its derivatives in [s] *)
Definition nblack (x s : R) : R := ncdf (x / s + s / 2) * exp (x / 2) - ncdf (x / s - s / 2) * exp (- x / 2).
Definition nvega (x s : R) : R := / sqrt (2 * PI) * exp (- / 2 * ((x / s) ^ 2 + (s / 2) ^ 2)).
Lemma nvega_pos x s : 0 < nvega x s.
Proof. apply Rmult_lt_0_compat; [apply Rinv_0_lt_compat, sqrt_2PI_pos|apply exp_pos]. Qed.

Lemma npdf_plus h t : npdf (h + t) * exp (h * t) = / sqrt (2 * PI) * exp (- / 2 * (h ^ 2 + t ^ 2)).
Proof. unfold npdf. rewrite Rmult_assoc, <- exp_plus. do 2 f_equal. field. Qed.
Lemma npdf_minus h t : npdf (h - t) * exp (- (h * t)) = / sqrt (2 * PI) * exp (- / 2 * (h ^ 2 + t ^ 2)).
Proof. unfold npdf. rewrite Rmult_assoc, <- exp_plus. do 2 f_equal. field. Qed.

(** the form of [nblack] in terms of [Y] *)
Definition pref (h t : R) : R := / sqrt (2 * PI) * exp (- / 2 * (h ^ 2 + t ^ 2)).
Lemma pref_pos h t : 0 < pref h t.
Proof. apply Rmult_lt_0_compat; [apply Rinv_0_lt_compat, sqrt_2PI_pos|apply exp_pos]. Qed.
Lemma nblack_Y x s : s <> 0 -> nblack x s = pref (x / s) (s / 2) * (Y (x / s + s / 2) - Y (x / s - s / 2)).
Proof.
  intros Hs. unfold nblack. set (h := x / s). set (t := s / 2).
  assert (E : x / 2 = h * t) by (unfold h, t; field; exact Hs). replace (- x / 2) with (- (h * t)) by (rewrite <- E; field). rewrite E.
  unfold pref. rewrite Rmult_minus_distr_l. rewrite <- npdf_plus at 1. rewrite <- npdf_minus. unfold Y.
  pose proof (npdf_pos (h + t)). pose proof (npdf_pos (h - t)). field. lra.
Qed.
Lemma nblack_pos x s : 0 < s -> 0 < nblack x s.
Proof.
  intros Hs. rewrite nblack_Y by lra. apply Rmult_lt_0_compat; [apply pref_pos|].
  assert (L : x / s - s / 2 < x / s + s / 2) by lra. pose proof (Yd_mono 0 _ _ L) as M. cbn [Yd] in M. lra.
Qed.
Lemma nblack_lt x s : 0 < s -> nblack x s < exp (x / 2).
Proof.
  intros Hs. unfold nblack. pose proof (ncdf_bound (x / s + s / 2)). pose proof (ncdf_bound (x / s - s / 2)).
  pose proof (exp_pos (x / 2)). pose proof (exp_pos (- x / 2)). nra.
Qed.
Lemma nblack_derive x s : 0 < s -> is_derive (fun s => nblack x s) s (nvega x s).
Proof.
  intros Hs. unfold nblack.
  assert (D1 : is_derive (fun s => x / s + s / 2) s (- x / s ^ 2 + / 2)) by (auto_derive; [repeat split; lra|match goal with |- ?u = ?v => change (@eq R u v) end; field; lra]).
  assert (D2 : is_derive (fun s => x / s - s / 2) s (- x / s ^ 2 - / 2)) by (auto_derive; [repeat split; lra|match goal with |- ?u = ?v => change (@eq R u v) end; field; lra]).
  eapply isd_eq; [apply d_sub; (apply d_mul; [apply d_ncdf; eassumption|apply d_const])|].
  set (h := x / s) in *. set (t := s / 2) in *. assert (E : x / 2 = h * t) by (unfold h, t; field; lra).
  replace (- x / 2) with (- (h * t)) by (rewrite <- E; field). rewrite E. unfold nvega. fold h t.
  pose proof (npdf_plus h t) as P. pose proof (npdf_minus h t) as Q.
  transitivity (npdf (h + t) * exp (h * t) * (- x / s ^ 2 + / 2) - npdf (h - t) * exp (- (h * t)) * (- x / s ^ 2 - / 2)); [ring|].
  rewrite P, Q. lra.
Qed.
Lemma nvega_derive x s : 0 < s -> is_derive (fun s => nvega x s) s (nvega x s * (x ^ 2 / s ^ 3 - s / 4)).
Proof.
  intros Hs. unfold nvega.
  assert (D : is_derive (fun s => - / 2 * ((x / s) ^ 2 + (s / 2) ^ 2)) s (x ^ 2 / s ^ 3 - s / 4)).
  { auto_derive; [lra|]. match goal with |- ?u = ?v => change (@eq R u v) end. simpl. field. lra. }
  eapply isd_eq; [apply d_mul; [apply d_const|apply (is_derive_comp exp _ _ _ _ (is_derive_exp _) D)]|].
  unfold scal; simpl; unfold mult; simpl. ring.
Qed.
Lemma nblack_increasing x a b : 0 < a -> a < b -> nblack x a < nblack x b.
Proof.
  intros Ha L. destruct (mvt (fun s => nblack x s) (fun s => nvega x s) a b L) as (c & _ & E); [intros; apply nblack_derive; lra|].
  pose proof (nvega_pos x c). nra.
Qed.
(** put-call symmetry *)
Lemma nblack_sym x s : 0 < s -> nblack x s = exp (x / 2) - exp (- x / 2) + nblack (- x) s.
Proof.
  intros Hs. unfold nblack. replace (- x / s + s / 2) with (- (x / s - s / 2)) by (field; lra).
  replace (- x / s - s / 2) with (- (x / s + s / 2)) by (field; lra). rewrite !ncdf_sym.
  replace (- - x / 2) with (x / 2) by field. ring.
Qed.

(** ** The asymptotic series of [Y] at minus infinity *)
(** 1 * 3 * ... * (2k - 1) *)
Fixpoint dfact (k : nat) : R := match k with O => 1 | S m => INR (2 * m + 1) * dfact m end.
Lemma dfact_pos k : 0 < dfact k.
Proof. induction k; [simpl; lra|]. cbn [dfact]. apply Rmult_lt_0_compat; [apply lt_0_INR; lia|exact IHk]. Qed.
(** 1/u - 1/u^3 + 3/u^5 - ..., up to the power 2n + 1 *)
Fixpoint mills_series (n : nat) (u : R) : R :=
  match n with O => / u | S m => mills_series m u + (-1) ^ (S m) * dfact (S m) * (/ u) ^ (2 * m + 3) end.
Lemma mills_series_derive n u : u <> 0 ->
  is_derive (mills_series n) u (u * mills_series n u - 1 + (-1) ^ (S n) * dfact (S n) * (/ u) ^ (2 * n + 2)).
Proof.
  intros Hu. induction n.
  - apply (isd_ext (fun u => / u)); [reflexivity|]. auto_derive; [exact Hu|]. match goal with |- ?a = ?b => change (@eq R a b) end.
    simpl. field. exact Hu.
  - apply (isd_ext (fun u => mills_series n u + (-1) ^ (S n) * dfact (S n) * (/ u) ^ (2 * n + 3))); [reflexivity|].
    assert (P : is_derive (fun u => (/ u) ^ (2 * n + 3)) u (INR (2 * n + 3) * (- (/ u) ^ 2) * (/ u) ^ (2 * n + 2))).
    { eapply isd_eq; [apply (is_derive_pow (fun u => / u) (2 * n + 3) u (- (/ u) ^ 2))|].
      - auto_derive; [exact Hu|]. match goal with |- ?a = ?b => change (@eq R a b) end. field. exact Hu.
      - replace (pred (2 * n + 3)) with (2 * n + 2)%nat by lia. reflexivity. }
    eapply isd_eq; [apply d_add; [exact IHn|apply d_mul; [apply d_const|exact P]]|].
    cbv beta. cbn [mills_series]. replace (2 * S n + 2)%nat with (2 * n + 2 + 2)%nat by lia. replace (2 * n + 3)%nat with (2 * n + 2 + 1)%nat by lia.
    rewrite (pow_add _ (2 * n + 2) 1), (pow_add _ (2 * n + 2) 2). set (p := (/ u) ^ (2 * n + 2)). change (dfact (S (S n))) with (INR (2 * S n + 1) * dfact (S n)).
    replace (2 * S n + 1)%nat with (2 * n + 2 + 1)%nat by lia. set (c := INR (2 * n + 2 + 1)). change ((-1) ^ S (S n)) with (-1 * (-1) ^ S n). set (e := (-1) ^ S n).
    set (d := dfact (S n)). assert (Hi : u * (/ u) = 1) by (field; exact Hu). set (v := / u) in *. cbn [pow].
    transitivity (u * mills_series n u - 1 + e * d * p - c * e * d * p * (v * v)); [ring|].
    transitivity (u * mills_series n u - 1 + e * d * p * (u * v) - c * e * d * p * (v * v)); [rewrite Hi; ring|ring].
Qed.
Lemma mills_series_bounded n : exists B, forall z, z <= -1 -> Rabs (mills_series n (- z)) <= B.
Proof.
  induction n.
  - exists 1. intros z Hz. cbn [mills_series]. rewrite Rabs_right.
    + rewrite <- Rinv_1. apply Rinv_le_contravar; lra.
    + left. apply Rinv_0_lt_compat. lra.
  - destruct IHn as [B HB]. exists (B + dfact (S n)). intros z Hz. cbn [mills_series]. eapply Rle_trans; [apply Rabs_triang|].
    apply Rplus_le_compat; [now apply HB|]. rewrite !Rabs_mult, pow_1_abs, Rmult_1_l. pose proof (dfact_pos (S n)).
    rewrite (Rabs_right (dfact (S n))) by lra. rewrite <- (Rmult_1_r (dfact (S n))) at 2. apply Rmult_le_compat_l; [lra|].
    assert (I : 0 < / - z <= 1) by (split; [apply Rinv_0_lt_compat; lra|rewrite <- Rinv_1; apply Rinv_le_contravar; lra]).
    rewrite Rabs_right by (apply Rle_ge, pow_le; lra). rewrite <- (pow1 (2 * n + 3)). apply pow_incr. lra.
Qed.
(** the partial sums lie on alternating sides *)
Lemma mills_sign n u : 0 < u -> 0 < (-1) ^ (S n) * (Y (- u) - mills_series n u).
Proof.
  intros Hu.
  assert (G : forall z, z < 0 -> 0 < (-1) ^ (S n) * (Y z - mills_series n (- z)) * npdf z).
  { apply (dec_increasing_pos_lt _ (fun z => npdf z * (dfact (S n) * (/ - z) ^ (2 * n + 2)))).
    - intros z Hz. assert (S1 : is_derive (fun z => mills_series n (- z)) z (- (- z * mills_series n (- z) - 1 + (-1) ^ (S n) * dfact (S n) * (/ - z) ^ (2 * n + 2)))).
      { eapply isd_eq; [apply (is_derive_comp (mills_series n) (fun z => - z) z); [apply mills_series_derive; lra|apply d_opp, d_id]|].
        unfold scal; simpl; unfold mult; simpl. ring. }
      eapply isd_eq; [apply d_mul; [apply d_mul; [apply d_const|apply d_sub; [apply Y_derive|exact S1]]|apply npdf_derive]|]. cbv beta.
      assert (SQ : (-1) ^ S n * (-1) ^ S n = 1) by (rewrite <- Rpow_mult_distr; replace (-1 * -1) with 1 by ring; apply pow1).
      set (e := (-1) ^ S n) in *. set (d := dfact (S n) * (/ - z) ^ (2 * n + 2)). set (m := mills_series n (- z)). replace (e * dfact (S n) * (/ - z) ^ (2 * n + 2)) with (e * d) by (unfold d; ring).
      transitivity (npdf z * (d * (e * e))); [ring|rewrite SQ; ring].
    - intros z Hz. apply Rmult_lt_0_compat; [apply npdf_pos|]. apply Rmult_lt_0_compat; [apply dfact_pos|]. apply pow_lt, Rinv_0_lt_compat. lra.
    - destruct (mills_series_bounded n) as [B HB].
      apply dec_ext with (fun z => (-1) ^ (S n) * ncdf z + -1 * ((-1) ^ (S n) * (mills_series n (- z) * npdf z))).
      + intros z. unfold Y. pose proof (npdf_pos z). field. lra.
      + apply dec_plus; [apply dec_scal, dec_ncdf|]. apply dec_scal, dec_scal. apply dec_bounded with B; [exact HB|apply dec_npdf]. }
  specialize (G (- u)). rewrite Ropp_involutive in G. pose proof (npdf_pos (- u)). assert (- u < 0) by lra. specialize (G H0). nra.
Qed.
(** the error of a partial sum is at most the first omitted term *)
Lemma mills_bracket n u : 0 < u -> 0 < (-1) ^ (S n) * (Y (- u) - mills_series n u) < dfact (S n) * (/ u) ^ (2 * n + 3).
Proof.
  intros Hu. split; [now apply mills_sign|]. pose proof (mills_sign (S n) u Hu) as H. cbn [mills_series] in H.
  assert (SQ : (-1) ^ S n * (-1) ^ S n = 1) by (rewrite <- Rpow_mult_distr; replace (-1 * -1) with 1 by ring; apply pow1).
  change ((-1) ^ S (S n)) with (-1 * (-1) ^ S n) in H. set (e := (-1) ^ S n) in *. set (p := (/ u) ^ (2 * n + 3)) in *. set (m := mills_series n u) in *.
  assert (E : -1 * e * (Y (- u) - (m + e * dfact (S n) * p)) = - (e * (Y (- u) - m)) + dfact (S n) * p * (e * e)) by ring.
  rewrite E, SQ in H. lra.
Qed.
(** the slope of the error *)
Definition mills_error (n : nat) (u : R) : R := Y (- u) - mills_series n u.
Lemma mills_error_derive n u : 0 < u -> exists d, is_derive (mills_error n) u d /\
  - (dfact (S (S n)) * (/ u) ^ (2 * n + 4)) <= (-1) ^ (S n) * d <= 0.
Proof.
  intros Hu. exists (- (1 + - u * Y (- u)) - (u * mills_series n u - 1 + (-1) ^ (S n) * dfact (S n) * (/ u) ^ (2 * n + 2))). split.
  - unfold mills_error. apply d_sub; [|apply mills_series_derive; lra].
    eapply isd_eq; [apply (is_derive_comp Y (fun z => - z) u); [apply Y_derive|apply d_opp, d_id]|]. unfold scal; simpl; unfold mult; simpl. ring.
  - pose proof (mills_bracket n u Hu) as [_ A]. pose proof (mills_bracket (S n) u Hu) as [_ B]. cbn [mills_series] in B.
    assert (SQ : (-1) ^ S n * (-1) ^ S n = 1) by (rewrite <- Rpow_mult_distr; replace (-1 * -1) with 1 by ring; apply pow1).
    change ((-1) ^ S (S n)) with (-1 * (-1) ^ S n) in B. replace (2 * S n + 3)%nat with (2 * n + 2 + 3)%nat in B by lia.
    replace (2 * n + 3)%nat with (2 * n + 2 + 1)%nat in * by lia. replace (2 * n + 4)%nat with (2 * n + 2 + 2)%nat by lia.
    rewrite (pow_add _ (2 * n + 2) 1) in A, B. rewrite (pow_add _ (2 * n + 2) 3) in B. rewrite (pow_add _ (2 * n + 2) 2).
    assert (Hi : u * / u = 1) by (field; lra). assert (Vp : 0 < / u) by (apply Rinv_0_lt_compat, Hu). set (v := / u) in *.
    assert (Pp : 0 < v ^ (2 * n + 2)) by (apply pow_lt, Vp). set (p := v ^ (2 * n + 2)) in *.
    set (e := (-1) ^ S n) in *. cbn [pow] in *. set (m := mills_series n u) in *. set (c := dfact (S n)) in *. set (c2 := dfact (S (S n))) in *. set (y := Y (- u)) in *.
    assert (E : e * (- (1 + - u * y) - (u * m - 1 + e * c * p)) = u * (e * (y - m)) - c * p * (e * e)) by ring. rewrite E, SQ. clear E.
    assert (E2 : -1 * e * (y - (m + e * c * (p * (v * 1)))) = - (e * (y - m)) + c * p * v * (e * e)) by ring. rewrite E2, SQ in B. clear E2.
    assert (c * p * (u * v) = c * p) by (rewrite Hi; ring). assert (c2 * p * v * v * (u * v) = c2 * p * v * v) by (rewrite Hi; ring).
    set (w := e * (y - m)) in *. split.
    + assert (u * (c * p * v - c2 * (p * (v * (v * (v * 1))))) <= u * w) by (apply Rmult_le_compat_l; lra). lra.
    + assert (u * w <= u * (c * (p * (v * 1)))) by (apply Rmult_le_compat_l; lra). lra.
Qed.
(** lower bound for the slope of [Y] *)
Lemma Y_slope_lower u : 0 < u -> (/ u) ^ 2 - 3 * (/ u) ^ 4 <= 1 - u * Y (- u).
Proof.
  intros Hu. pose proof (mills_bracket 1 u Hu) as [_ A]. pose proof (mills_sign 2 u Hu) as B. cbn [mills_series dfact] in B. simpl in B.
  assert (Hi : u * / u = 1) by (field; lra). assert (Vp : 0 < / u) by (apply Rinv_0_lt_compat, Hu). set (v := / u) in *.
  assert (Y (- u) <= v - v ^ 3 + 3 * v ^ 5) by (simpl; lra).
  assert (u * Y (- u) <= u * (v - v ^ 3 + 3 * v ^ 5)) by (apply Rmult_le_compat_l; lra).
  assert (u * (v - v ^ 3 + 3 * v ^ 5) = (u * v) * (1 - v ^ 2 + 3 * v ^ 4)) by ring. rewrite H1, Hi in H0. lra.
Qed.
