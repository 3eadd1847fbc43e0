(** C24, C25: root finding. *)
From Coq Require Import Reals List Bool ZArith Lra Lia Psatz.
From Coquelicot Require Import Coquelicot.
From Verif Require Import Res InterpModel InterpProofs RootModel.
Open Scope R_scope.

Lemma eps_pos : 0 < eps.
Proof. unfold eps. apply Rinv_0_lt_compat. apply IZR_lt. reflexivity. Qed.
Lemma eps_small : eps < / 1000000.
Proof.
  unfold eps. apply Rinv_lt_contravar; [|apply IZR_lt; reflexivity].
  apply Rmult_lt_0_compat; [lra|]. apply IZR_lt; reflexivity.
Qed.

(** the threshold below which a value counts as zero: (42 * 2^-52)^2 *)
Definition tiny : R := (42 * / IZR (2 ^ 52)) ^ 2.
Lemma tiny_pos : 0 < tiny.
Proof. unfold tiny. apply pow_lt. pose proof eps_pos as E. unfold eps in E. lra. Qed.
Lemma tiny_small : tiny < / 1000000.
Proof. unfold tiny. fold eps. pose proof eps_pos. pose proof eps_small. nra. Qed.

Lemma close_zero y : reflect (Rabs y < tiny) (close y 0).
Proof.
  unfold close. destruct (Reqb_spec y 0) as [->|Ne].
  - constructor. rewrite Rabs_R0. apply tiny_pos.
  - rewrite Rmult_0_r. destruct (Reqb_spec 0 0) as [_|X]; [|contradiction].
    rewrite Rminus_0_r. fold eps. change ((42 * eps) ^ 2) with tiny. apply Rltb_spec.
Qed.

Definition between (a b v : R) : Prop := Rmin a b <= v <= Rmax a b.
Lemma between_comm a b v : between a b v -> between b a v.
Proof. unfold between. rewrite Rmin_comm, Rmax_comm. auto. Qed.
Lemma between_trans a b c d v : between a b c -> between a b d -> between c d v -> between a b v.
Proof.
  unfold between, Rmin, Rmax. destruct (Rle_dec a b), (Rle_dec c d); lra.
Qed.
Lemma between_mid a b : between a b (a + (b - a) / 2).
Proof. unfold between, Rmin, Rmax. destruct (Rle_dec a b); lra. Qed.
Lemma between_l a b : between a b a.
Proof. unfold between, Rmin, Rmax. destruct (Rle_dec a b); lra. Qed.
Lemma between_r a b : between a b b.
Proof. unfold between, Rmin, Rmax. destruct (Rle_dec a b); lra. Qed.

(** a continuous function with a sign change has a zero in between *)
Lemma ivt f a b : continuity f -> f a <= 0 -> 0 <= f b -> exists z, between a b z /\ f z = 0.
Proof.
  intros C A B. destruct (IVT_gen f a b 0 C) as (z & Z & E).
  - unfold Rmin, Rmax. destruct (Rle_dec (f a) (f b)); lra.
  - exists z. split; [exact Z|exact E].
Qed.

(** ** Bisection *)

(** outcome of the loop started at [root] with width [dx] *)
Definition bis_outcome (f : R -> R) (acc a b v : R) : Prop :=
  between a b v /\ f v <= 0 /\
  (Rabs (f v) < tiny \/
   (exists z, between a b z /\ Rabs (z - v) < acc /\ 0 < f z) \/
   (exists m, between a b m /\ 0 < f m < tiny)).

Lemma bisect_loop_outcome f acc k : forall fuel count root dx,
  (k < fuel)%nat -> (count + Z.of_nat k <= 1000)%Z -> Rabs dx < acc * 2 ^ S k ->
  f root <= 0 -> 0 < f (root + dx) ->
  exists v, bisect_loop fuel f acc count root dx = Ret v /\ bis_outcome f acc root (root + dx) v.
Proof.
  induction k as [|k IH]; intros fuel count root dx Hf Hc Hd Fl Fr.
  - destruct fuel as [|fuel]; [lia|]. cbn [bisect_loop].
    destruct (Z.leb_spec count max_iterations) as [_|X]; [|unfold max_iterations in X; lia]. cbv zeta.
    assert (D : Rabs (dx / 2) < acc).
    { unfold Rdiv. rewrite Rabs_mult, (Rabs_pos_eq (/2)) by lra. simpl in Hd. lra. }
    destruct (Rltb_spec (Rabs (dx / 2)) acc); [|contradiction]. cbn [orb].
    eexists; split; [reflexivity|]. destruct (Rleb_spec (f (root + dx / 2)) 0) as [L|L].
    + split; [|split; [exact L|]].
      * replace (root + dx / 2) with (root + (root + dx - root) / 2) by field. apply between_mid.
      * right; left. exists (root + dx). split; [apply between_r|]. split; [|exact Fr].
        replace (root + dx - (root + dx / 2)) with (dx / 2) by field. exact D.
    + split; [apply between_l|]. split; [exact Fl|]. right; left. exists (root + dx / 2).
      split; [replace (root + dx / 2) with (root + (root + dx - root) / 2) by field; apply between_mid|].
      split; [replace (root + dx / 2 - root) with (dx / 2) by ring; exact D|lra].
  - destruct fuel as [|fuel]; [lia|]. cbn [bisect_loop].
    destruct (Z.leb_spec count max_iterations) as [_|X]; [|unfold max_iterations in X; lia]. cbv zeta.
    assert (M : between root (root + dx) (root + dx / 2)).
    { replace (root + dx / 2) with (root + (root + dx - root) / 2) by field. apply between_mid. }
    destruct (Rltb_spec (Rabs (dx / 2)) acc) as [D|D]; cbn [orb].
    { eexists; split; [reflexivity|]. destruct (Rleb_spec (f (root + dx / 2)) 0) as [L|L].
      - split; [exact M|]. split; [exact L|]. right; left. exists (root + dx).
        split; [apply between_r|]. split; [|exact Fr].
        replace (root + dx - (root + dx / 2)) with (dx / 2) by field. exact D.
      - split; [apply between_l|]. split; [exact Fl|]. right; left. exists (root + dx / 2).
        split; [exact M|]. split; [replace (root + dx / 2 - root) with (dx / 2) by ring; exact D|lra]. }
    destruct (close_zero (f (root + dx / 2))) as [C|C].
    { eexists; split; [reflexivity|]. destruct (Rleb_spec (f (root + dx / 2)) 0) as [L|L].
      - split; [exact M|]. split; [exact L|]. left. exact C.
      - split; [apply between_l|]. split; [exact Fl|]. right; right. exists (root + dx / 2).
        split; [exact M|]. rewrite Rabs_pos_eq in C by lra. lra. }
    assert (Hd' : Rabs (dx / 2) < acc * 2 ^ S k).
    { unfold Rdiv. rewrite Rabs_mult, (Rabs_pos_eq (/2)) by lra. simpl in Hd |- *. lra. }
    destruct (Rleb_spec (f (root + dx / 2)) 0) as [L|L].
    + assert (E : root + dx / 2 + dx / 2 = root + dx) by field.
      destruct (IH fuel (count + 1)%Z (root + dx / 2) (dx / 2)) as (v & V & B1 & B2 & B3); [lia|lia|exact Hd'|exact L|rewrite E; exact Fr|].
      rewrite E in *. exists v. split; [exact V|].
      assert (G : forall z, between (root + dx / 2) (root + dx) z -> between root (root + dx) z).
      { intros z. apply between_trans; [exact M|apply between_r]. }
      split; [apply G; exact B1|]. split; [exact B2|].
      destruct B3 as [B3|[(z & Z1 & Z2)|(m & M1 & M2)]]; [left; exact B3|right; left; exists z; split; auto|right; right; exists m; split; auto].
    + destruct (IH fuel (count + 1)%Z root (dx / 2)) as (v & V & B1 & B2 & B3); [lia|lia|exact Hd'|exact Fl|lra|].
      exists v. split; [exact V|].
      assert (G : forall z, between root (root + dx / 2) z -> between root (root + dx) z).
      { intros z. apply between_trans; [apply between_l|exact M]. }
      split; [apply G; exact B1|]. split; [exact B2|].
      destruct B3 as [B3|[(z & Z1 & Z2)|(m & M1 & M2)]]; [left; exact B3|right; left; exists z; split; auto|right; right; exists m; split; auto].
Qed.

(** the bracket handed to the back-end *)
Definition sign_change (f : R -> R) (b : bracket) : Prop :=
  y_min b = f (x_min b) /\ y_max b = f (x_max b) /\ y_min b * y_max b < 0.

(** Given a sign change, a width below [accuracy * 2^k] and budget for [k]
    halvings, bisection returns a point of the bracket that is numerically a
    zero or has a sign change within the accuracy, unless a midpoint was
    numerically zero from above (see the refutation below). *)
Theorem bisection_encloses : forall fuel f acc b count k, (1000 <= fuel)%nat -> sign_change f b ->
  (1 <= k < 1000)%nat -> (0 <= count)%Z -> (count + Z.of_nat k <= 1001)%Z ->
  Rabs (x_max b - x_min b) < acc * 2 ^ k ->
  exists v, bisection_impl fuel f acc b count = Ret v /\ bis_outcome f acc (x_min b) (x_max b) v.
Proof.
  intros fuel f acc b count k Hfuel (Em & EM & Sg) Hk Hc0 Hc Hw. unfold bisection_impl.
  destruct k as [|k]; [lia|].
  destruct (Rltb_spec (y_min b) 0) as [L|L].
  - destruct (bisect_loop_outcome f acc k fuel count (x_min b) (x_max b - x_min b)) as (v & V & B).
    + lia.
    + lia.
    + exact Hw.
    + lra.
    + replace (x_min b + (x_max b - x_min b)) with (x_max b) by ring. nra.
    + exists v. split; [exact V|]. replace (x_min b + (x_max b - x_min b)) with (x_max b) in B by ring. exact B.
  - destruct (bisect_loop_outcome f acc k fuel count (x_max b) (x_min b - x_max b)) as (v & V & B).
    + lia.
    + lia.
    + rewrite Rabs_minus_sym. exact Hw.
    + assert (0 < y_min b) by (destruct (Req_dec (y_min b) 0) as [E|E]; [rewrite E in Sg; lra|lra]). nra.
    + replace (x_max b + (x_min b - x_max b)) with (x_min b) by ring.
      rewrite <- Em. destruct (Req_dec (y_min b) 0) as [E|E]; [rewrite E in Sg; lra|lra].
    + exists v. split; [exact V|]. replace (x_max b + (x_min b - x_max b)) with (x_min b) in B by ring.
      destruct B as (B1 & B2 & B3). split; [apply between_comm; exact B1|]. split; [exact B2|].
      destruct B3 as [B3|[(z & Z1 & Z2)|(m & M1 & M2)]]; [left; exact B3|right; left; exists z; split; [apply between_comm|]; auto|right; right; exists m; split; [apply between_comm|]; auto].
Qed.
Print Assumptions bisection_encloses.

(** continuous objective, no midpoint value in (0, tiny): a true zero within the accuracy, or a numerical zero *)
Corollary bisection_near_zero : forall fuel f acc b count k, (1000 <= fuel)%nat -> sign_change f b -> continuity f ->
  (1 <= k < 1000)%nat -> (0 <= count)%Z -> (count + Z.of_nat k <= 1001)%Z ->
  Rabs (x_max b - x_min b) < acc * 2 ^ k ->
  (forall x, between (x_min b) (x_max b) x -> ~ (0 < f x < tiny)) ->
  exists v, bisection_impl fuel f acc b count = Ret v /\ between (x_min b) (x_max b) v /\
    (Rabs (f v) < tiny \/ exists z, f z = 0 /\ Rabs (z - v) < acc).
Proof.
  intros fuel f acc b count k Hfuel S C Hk Hc0 Hc Hw No.
  destruct (bisection_encloses fuel f acc b count k Hfuel S Hk Hc0 Hc Hw) as (v & V & B1 & B2 & B3).
  exists v. split; [exact V|]. split; [exact B1|].
  destruct B3 as [B3|[(z & Z1 & Z2 & Z3)|(m & M1 & M2)]].
  - left; exact B3.
  - right. destruct (ivt f v z C B2 ltac:(lra)) as (r & Rb & Rz). exists r. split; [exact Rz|].
    unfold between, Rmin, Rmax in Rb. unfold Rabs in *.
    destruct (Rle_dec v z), (Rcase_abs (z - v)), (Rcase_abs (r - v)); lra.
  - exfalso. exact (No m M1 M2).
Qed.
Print Assumptions bisection_near_zero.

Example bisection_encloses_case : sign_change (fun x => x * x - 2) (Bracket 0 2 (-2) 2) /\
  Rabs (2 - 0) < / 1000 * 2 ^ 12.
Proof.
  split; [repeat split; simpl; lra|]. rewrite Rabs_pos_eq by lra. simpl. lra.
Qed.

(** ** the early exit returns the wrong end *)

(** When a midpoint value is positive and below [tiny], the loop stops but
    returns the other end of the bracket, which may be arbitrarily far from
    every zero. Here through the public entry point. *)
Theorem bisection_early_exit_refuted : exists f guess dt v, continuity f /\
  (forall fuel, (1000 <= fuel)%nat -> bisection fuel f guess dt = Ret v) /\ accuracy dt = / 2 /\
  Rabs (f v) >= 1 / 2 /\ (forall z, f z = 0 -> Rabs (z - v) >= 1 / 2).
Proof.
  exists (fun x => x + tiny / 2), (-1), (RData 2 (/2) 0 0 false), (-1).
  pose proof tiny_pos as T0. pose proof tiny_small as T1. pose proof eps_small as E1.
  split; [intros x; reg|].
  split; [|split; [reflexivity|split]].
  - intros [|n9] Hf; [lia|]. clear Hf. unfold bisection, solve. cbn [accuracy]. destruct (Rltb_spec 0 (/2)); [|lra]. cbn [assertb]. cbv zeta.
    destruct (close_zero (-1 + tiny / 2)) as [C|C]; [rewrite Rabs_left in C; lra|].
    destruct (Rltb_spec 0 (-1 + tiny / 2)) as [L|_]; [lra|].
    unfold enforce_bounds. cbn [enforced andb stepsize].
    replace (-1 + 2) with 1 by ring.
    cbn [solve_loop Z.leb Z.compare max_iterations Pos.compare Pos.compare_cont].
    cbn [y_min y_max x_min x_max].
    destruct (Rleb_spec ((-1 + tiny / 2) * (1 + tiny / 2)) 0) as [_|X]; [|nra].
    destruct (close_zero (-1 + tiny / 2)) as [X|_]; [contradiction|].
    destruct (close_zero (1 + tiny / 2)) as [X|_]; [rewrite Rabs_pos_eq in X; lra|].
    unfold bisection_impl. cbn [y_min y_max x_min x_max].
    destruct (Rltb_spec (-1 + tiny / 2) 0) as [_|X]; [|lra].
    cbn [bisect_loop Z.leb Z.compare max_iterations Pos.compare Pos.compare_cont]. cbv zeta.
    replace (-1 + (1 - -1) / 2) with 0 by field.
    destruct (Rleb_spec (0 + tiny / 2) 0) as [X|_]; [lra|].
    destruct (close_zero (0 + tiny / 2)) as [_|X]; [|exfalso; apply X; rewrite Rabs_pos_eq; lra].
    rewrite orb_true_r. reflexivity.
  - apply Rle_ge. rewrite Rabs_left; lra.
  - intros z Hz. apply Rle_ge. rewrite Rabs_pos_eq; lra.
Qed.
Print Assumptions bisection_early_exit_refuted.

(** ** Newton-Raphson with bisection safeguard *)

Definition newton_outcome (f g : R -> R) (acc v : R) : Prop :=
  (exists a b, f a < 0 /\ 0 <= f b /\ between a b v /\ Rabs (b - v) < acc /\ Rabs (a - v) < acc) \/
  (exists u, g u <> 0 /\ v = u - f u / g u /\ Rabs (f u / g u) < acc).

Lemma newton_loop_outcome f g acc a0 b0 : forall fuel count root xl xh dx dxold v,
  newton_loop fuel f g acc count root (f root) (g root) xl xh dx dxold = Ret v ->
  f xl < 0 -> 0 <= f xh -> between a0 b0 xl -> between a0 b0 xh ->
  v = 0 \/ between a0 b0 v /\ newton_outcome f g acc v.
Proof.
  induction fuel as [|fuel IH]; intros count root xl xh dx dxold v H Fl Fh Bl Bh; [discriminate|].
  cbn [newton_loop] in H. destruct (count <=? max_iterations)%Z; [|injection H as <-; left; reflexivity].
  cbv zeta in H.
  assert (Step : forall r dx' dxold', between xl xh r ->
    (Rabs dx' < acc -> newton_outcome f g acc r) ->
    (if Rltb (Rabs dx') acc then Ret r
     else if Rltb (f r) 0 then newton_loop fuel f g acc (count + 1) r (f r) (g r) r xh dx' dxold'
          else newton_loop fuel f g acc (count + 1) r (f r) (g r) xl r dx' dxold') = Ret v ->
    v = 0 \/ between a0 b0 v /\ newton_outcome f g acc v).
  { clear H. intros r dx' dxold' Br O H.
    assert (Br0 : between a0 b0 r) by (eapply between_trans; [exact Bl|exact Bh|exact Br]).
    destruct (Rltb_spec (Rabs dx') acc) as [D|D].
    - injection H as <-. right. split; [exact Br0|apply O; exact D].
    - destruct (Rltb_spec (f r) 0) as [L|L].
      + eapply IH; [exact H|exact L|exact Fh|exact Br0|exact Bh].
      + eapply IH; [exact H|exact Fl|lra|exact Bl|exact Br0]. }
  destruct (Rltb_spec 0 (((root - xh) * g root - f root) * ((root - xl) * g root - f root))) as [P|P];
    cbn [orb] in H.
  - eapply Step; [|intros D|exact H].
    + apply between_mid.
    + left. exists xl, xh. split; [exact Fl|]. split; [exact Fh|]. split; [apply between_mid|].
      split; [replace (xh - (xl + (xh - xl) / 2)) with ((xh - xl) / 2) by field; exact D|].
      replace (xl - (xl + (xh - xl) / 2)) with (- ((xh - xl) / 2)) by field. rewrite Rabs_Ropp. exact D.
  - destruct (Rltb (Rabs (dxold * g root)) (Rabs (2 * f root))).
    + eapply Step; [|intros D|exact H].
      * apply between_mid.
      * left. exists xl, xh. split; [exact Fl|]. split; [exact Fh|]. split; [apply between_mid|].
        split; [replace (xh - (xl + (xh - xl) / 2)) with ((xh - xl) / 2) by field; exact D|].
        replace (xl - (xl + (xh - xl) / 2)) with (- ((xh - xl) / 2)) by field. rewrite Rabs_Ropp. exact D.
    + destruct (Reqb_spec (g root) 0) as [G|G]; [injection H as <-; left; reflexivity|].
      eapply Step; [|intros D|exact H].
      * assert (E : ((root - xh) * g root - f root) * ((root - xl) * g root - f root)
                    = (g root * g root) * ((root - f root / g root - xh) * (root - f root / g root - xl))) by (field; exact G).
        rewrite E in P. assert (G2 : 0 < g root * g root) by nra.
        set (w := root - f root / g root) in *. clearbody w.
        assert (Q : (w - xh) * (w - xl) <= 0).
        { apply Rnot_lt_le. intros X. apply P. apply Rmult_lt_0_compat; assumption. }
        unfold between, Rmin, Rmax. destruct (Rle_dec xl xh); split; nra.
      * right. exists root. split; [exact G|]. split; [reflexivity|exact D].
Qed.

(** what a returned value guarantees: it lies in the bracket, and it is either
    the midpoint of a sub-bracket with a sign change within the accuracy, or
    the result of a Newton step shorter than the accuracy; or it is the
    fallback 0.0 *)
Theorem newton_sound : forall fuel f g acc b count v, sign_change f b ->
  newton_impl fuel f g acc b count = Ret v ->
  v = 0 \/ between (x_min b) (x_max b) v /\ newton_outcome f g acc v.
Proof.
  intros fuel f g acc b count v (Em & EM & Sg) H. unfold newton_impl in H.  cbv zeta in H.
  assert (N0 : y_min b <> 0) by (intros E; rewrite E in Sg; lra).
  destruct (Rltb_spec (y_min b) 0) as [L|L].
  - eapply newton_loop_outcome; [exact H|lra|nra|apply between_l|apply between_r].
  - eapply newton_loop_outcome; [exact H|nra|lra|apply between_r|apply between_l].
Qed.
Print Assumptions newton_sound.
Example newton_sound_case : sign_change (fun x => x * x - 2) (Bracket 1 2 (-1) 2).
Proof. repeat split; simpl; lra. Qed.

(** a stationary root at the midpoint of the bracket: 0/0, and the answer is the fallback 0.0 *)
Theorem newton_stationary_root_refuted : exists (f g : R -> R) guess dt,
  (forall x, is_derive f x (g x)) /\ f 1 = 0 /\
  (forall fuel, (1000 <= fuel)%nat -> newton fuel f g guess dt = Ret 0) /\ f 0 = -1.
Proof.
  exists (fun x => (x - 1) ^ 3), (fun x => 3 * (x - 1) ^ 2), 0, (RData 2 (/2) 0 0 false).
  pose proof tiny_small as T1.
  split; [intros x; auto_derive; [trivial|]; simpl; ring|]. split; [ring|]. split; [|ring].
  intros [|n9] Hf; [lia|]. clear Hf. unfold newton, solve. cbn [accuracy]. destruct (Rltb_spec 0 (/2)); [|lra]. cbn [assertb]. cbv zeta.
  replace ((0 - 1) ^ 3) with (-1) by ring.
  destruct (close_zero (-1)) as [C|C]; [rewrite Rabs_left in C; lra|].
  destruct (Rltb_spec 0 (-1)) as [L|_]; [lra|].
  unfold enforce_bounds. cbn [enforced andb stepsize].
  cbn [solve_loop Z.leb Z.compare max_iterations Pos.compare Pos.compare_cont].
  cbn [y_min y_max x_min x_max]. replace ((0 + 2 - 1) ^ 3) with 1 by ring.
  destruct (Rleb_spec (-1 * 1) 0) as [_|X]; [|lra].
  destruct (close_zero (-1)) as [X|_]; [contradiction|].
  destruct (close_zero 1) as [X|_]; [rewrite Rabs_pos_eq in X; lra|].
  unfold newton_impl. cbn [y_min y_max x_min x_max]. cbv zeta.
  replace (/ 2 * (0 + 2 + 0)) with 1 by field.
  cbn [newton_loop Z.add Pos.add Pos.succ Z.leb Z.compare max_iterations Pos.compare Pos.compare_cont]. cbv zeta.
  replace ((1 - 1) ^ 3) with 0 by ring. replace (3 * (1 - 1) ^ 2) with 0 by ring.
  destruct (Rltb_spec (-1) 0) as [_|X]; [|lra].
  rewrite !Rmult_0_r, Rminus_0_r, Rmult_0_r.
  destruct (Rltb_spec 0 0) as [X|_]; [lra|]. destruct (Rltb_spec (Rabs 0) (Rabs 0)) as [X|_]; [lra|]. cbn [orb].
  destruct (Reqb_spec 0 0) as [_|X]; [reflexivity|contradiction].
Qed.
Print Assumptions newton_stationary_root_refuted.

(** ** Brent *)

(** the divisions of a step are well defined *)
Theorem brent_step_divisors : forall froot e b s q r p qq, froot <> 0 -> Rabs froot <= Rabs (y_max b) ->
  Rabs froot < y_min b -> s = froot / y_min b ->
  y_min b <> 0 /\ y_max b <> 0 /\ 1 - s <> 0 /\
  (q = y_min b / y_max b -> r = froot / y_max b -> qq = (q - 1) * (r - 1) * (s - 1) ->
   2 * Rabs p < Rabs (e * qq) -> qq <> 0).
Proof.
  intros froot e b s q r p qq F L M Hs.
  assert (0 < Rabs froot) by (apply Rabs_pos_lt; exact F).
  assert (y_min b <> 0) by lra.
  split; [assumption|]. split; [intros E; rewrite E, Rabs_R0 in L; lra|]. split.
  - subst s. intros E. assert (X : froot / y_min b = 1) by lra.
    assert (froot = y_min b) by (apply Rmult_eq_reg_r with (/ y_min b); [|apply Rinv_neq_0_compat; assumption]; rewrite Rinv_r by assumption; exact X).
    pose proof (Rle_abs froot). lra.
  - intros _ _ _ P E. rewrite E, Rmult_0_r, Rabs_R0 in P. pose proof (Rabs_pos p). lra.
Qed.
Print Assumptions brent_step_divisors.

Lemma brent_loop_outcome f acc : forall fuel count root d e b v,
  brent_loop fuel f acc count root (f root) d e b = Ret v ->
  y_min b = f (x_min b) -> y_max b = f (x_max b) -> y_min b * y_max b <= 0 ->
  v = 0 \/ Rabs (f v) < tiny \/
  exists z, f v * f z <= 0 /\ Rabs (z - v) <= acc + 4 * / IZR (2 ^ 52) * Rabs v.
Proof.
  induction fuel as [|fuel IH]; intros count root d e b v H Em EM Sg; [discriminate|].
  cbn [brent_loop] in H. destruct (count <=? max_iterations)%Z; [|injection H as <-; left; reflexivity].
  cbv zeta in H.
  set (same := (Rltb 0 (f root) && Rltb 0 (y_max b)) || (Rltb (f root) 0 && Rltb (y_max b) 0)) in *.
  set (b1 := if same then Bracket (x_min b) (x_min b) (y_min b) (y_min b) else b) in *.
  assert (B1 : y_max b1 = f (x_max b1) /\ f root * y_max b1 <= 0).
  { subst b1. destruct same eqn:S; subst same.
    - cbn [y_max x_max]. split; [exact Em|].
      apply orb_true_iff in S as [S|S]; apply andb_true_iff in S as [S1 S2].
      + destruct (Rltb_spec 0 (f root)); [|discriminate]. destruct (Rltb_spec 0 (y_max b)); [|discriminate]. nra.
      + destruct (Rltb_spec (f root) 0); [|discriminate]. destruct (Rltb_spec (y_max b) 0); [|discriminate]. nra.
    - split; [exact EM|]. apply orb_false_iff in S as [S1 S2]. apply andb_false_iff in S1, S2.
      destruct (Rltb_spec 0 (f root)), (Rltb_spec 0 (y_max b)), (Rltb_spec (f root) 0), (Rltb_spec (y_max b) 0); try lra; try nra;
        destruct S1, S2; discriminate. }
  destruct B1 as [EM1 Sg1]. clearbody b1.
  set (d1 := if same then _ else d) in *. clearbody d1.
  set (e1 := if same then _ else e) in *. clearbody e1. clear Em EM Sg.
  (* the state after the optional swap *)
  assert (G : forall root' b', y_max b' = f (x_max b') -> f root' * y_max b' <= 0 ->
    (if Rleb (Rabs (/ 2 * (x_max b' - root'))) (2 * eps * Rabs root' + / 2 * acc) || close (f root') 0 then Ret root'
     else let '(d, e) := brent_step root' (f root') (/ 2 * (x_max b' - root')) (2 * eps * Rabs root' + / 2 * acc) d1 e1 b' in
       brent_loop fuel f acc (count + 1)
         (if Rltb (2 * eps * Rabs root' + / 2 * acc) (Rabs d) then root' + d else root' + nrsign (2 * eps * Rabs root' + / 2 * acc) (/ 2 * (x_max b' - root')))
         (f (if Rltb (2 * eps * Rabs root' + / 2 * acc) (Rabs d) then root' + d else root' + nrsign (2 * eps * Rabs root' + / 2 * acc) (/ 2 * (x_max b' - root'))))
         d e (Bracket root' (x_max b') (f root') (y_max b'))) = Ret v ->
    v = 0 \/ Rabs (f v) < tiny \/
    exists z, f v * f z <= 0 /\ Rabs (z - v) <= acc + 4 * / IZR (2 ^ 52) * Rabs v).
  { clear H EM1 Sg1. intros root' b' EM1 Sg1 H.
    destruct (Rleb_spec (Rabs (/ 2 * (x_max b' - root'))) (2 * eps * Rabs root' + / 2 * acc)) as [D|D]; cbn [orb] in H.
    - injection H as <-. right; right. exists (x_max b'). split; [rewrite <- EM1; exact Sg1|].
      rewrite Rabs_mult, (Rabs_pos_eq (/2)) in D by lra. fold eps. lra.
    - destruct (close_zero (f root')) as [C|C].
      + injection H as <-. right; left. exact C.
      + destruct (brent_step root' _ _ _ d1 e1 b') as [d2 e2].
        eapply IH; [exact H|reflexivity|exact EM1|exact Sg1]. }
  destruct (Rltb (Rabs (y_max b1)) (Rabs (f root))).
  - rewrite EM1 in H. cbn [x_max y_max] in H. apply (G (x_max b1) (Bracket root root (f root) (f root))); [reflexivity| |exact H].
    cbn [y_max]. rewrite EM1 in Sg1. lra.
  - apply (G root b1); assumption.
Qed.

(** what a value returned by Brent's loop guarantees *)
Theorem brent_sound : forall fuel f acc b count v, sign_change f b -> brent_impl fuel f acc b count = Ret v ->
  v = 0 \/ Rabs (f v) < tiny \/
  exists z, f v * f z <= 0 /\ Rabs (z - v) <= acc + 4 * / IZR (2 ^ 52) * Rabs v.
Proof.
  intros fuel f acc b count v (Em & EM & Sg) H. unfold brent_impl in H.  rewrite EM in H.
  eapply brent_loop_outcome; [exact H|exact Em|exact EM|lra].
Qed.
Print Assumptions brent_sound.
Corollary brent_near_zero : forall fuel f acc b count v, sign_change f b -> continuity f ->
  brent_impl fuel f acc b count = Ret v ->
  v = 0 \/ Rabs (f v) < tiny \/ exists z, f z = 0 /\ Rabs (z - v) <= acc + 4 * / IZR (2 ^ 52) * Rabs v.
Proof.
  intros fuel f acc b count v S C H. destruct (brent_sound fuel f acc b count v S H) as [Z|[T|(z & P & D)]]; [auto|auto|].
  right; right.
  assert (X : exists r, between v z r /\ f r = 0).
  { destruct (Rle_lt_dec (f v) 0) as [L|L].
    - destruct (Rle_lt_dec 0 (f z)) as [L'|L']; [apply ivt; assumption|].
      assert (f v = 0) by nra. exists v. split; [apply between_l|assumption].
    - destruct (ivt f z v C) as (r & B & Z); [nra|lra|]. exists r. split; [apply between_comm; exact B|exact Z]. }
  destruct X as (r & B & Z). exists r. split; [exact Z|]. eapply Rle_trans; [|exact D].
  unfold between, Rmin, Rmax in B. unfold Rabs.
  destruct (Rle_dec v z), (Rcase_abs (z - v)), (Rcase_abs (r - v)); lra.
Qed.
Print Assumptions brent_near_zero.
Example brent_case : sign_change (fun x => x ^ 3 - 2) (Bracket 2 0 6 (-2)).
Proof. repeat split; simpl; lra. Qed.

(** ** the public [solve] *)

Definition in_interval (dt : rdata) (x : R) : Prop := enforced dt = true -> ilo dt <= x <= ihi dt.
Lemma enforce_in dt x : ilo dt <= ihi dt -> in_interval dt (enforce_bounds dt x).
Proof.
  intros L E. unfold enforce_bounds. rewrite E. cbn [andb].
  destruct (Rltb_spec x (ilo dt)); [lra|]. destruct (Rltb_spec (ihi dt) x); lra.
Qed.

Lemma solve_loop_cases f impl dt acc : ilo dt <= ihi dt -> forall fuel count flip b v,
  y_min b = f (x_min b) -> y_max b = f (x_max b) -> in_interval dt (x_min b) -> in_interval dt (x_max b) ->
  (2 <= count)%Z -> solve_loop fuel f impl dt acc count flip b = Ret v ->
  v = 0 \/ (Rabs (f v) < tiny /\ in_interval dt v) \/
  exists b' count', sign_change f b' /\ in_interval dt (x_min b') /\ in_interval dt (x_max b') /\
    (2 <= count' <= 1000)%Z /\ impl acc b' count' = Ret v.
Proof.
  intros Li. induction fuel as [|fuel IH]; intros count flip b v Em EM Im IM Hc H; [discriminate|].
  cbn [solve_loop] in H. destruct (Z.leb_spec count max_iterations) as [Lc|_]; [|injection H as <-; left; reflexivity].
  destruct (Rleb_spec (y_min b * y_max b) 0) as [P|P].
  - destruct (close_zero (y_min b)) as [C1|C1]; [injection H as <-; right; left; rewrite <- Em; split; assumption|].
    destruct (close_zero (y_max b)) as [C2|C2]; [injection H as <-; right; left; rewrite <- EM; split; assumption|].
    right; right. exists b, count. pose proof tiny_pos.
    split; [split; [exact Em|split; [exact EM|]]|].
    { assert (y_min b <> 0) by (intros E; apply C1; rewrite E, Rabs_R0; lra).
      assert (y_max b <> 0) by (intros E; apply C2; rewrite E, Rabs_R0; lra).
      destruct (Rle_lt_or_eq_dec _ _ P) as [X|X]; [exact X|]. apply Rmult_integral in X. tauto. }
    split; [exact Im|]. split; [exact IM|]. split; [unfold max_iterations in Lc; lia|exact H].
  - cbv zeta in H.
    assert (Dn : forall fl c, (2 <= c)%Z -> solve_loop fuel f impl dt acc c fl
       (Bracket (enforce_bounds dt (x_min b + growth_factor * (x_min b - x_max b))) (x_max b) (f (enforce_bounds dt (x_min b + growth_factor * (x_min b - x_max b)))) (y_max b)) = Ret v -> 
       v = 0 \/ (Rabs (f v) < tiny /\ in_interval dt v) \/
       exists b' count', sign_change f b' /\ in_interval dt (x_min b') /\ in_interval dt (x_max b') /\
         (2 <= count' <= 1000)%Z /\ impl acc b' count' = Ret v).
    { intros fl c Hc' H'. eapply IH; [| | | | |exact H']; [reflexivity|exact EM|apply enforce_in; exact Li|exact IM|exact Hc']. }
    assert (Up : forall fl c, (2 <= c)%Z -> solve_loop fuel f impl dt acc c fl
       (Bracket (x_min b) (enforce_bounds dt (x_max b + growth_factor * (x_max b - x_min b))) (y_min b) (f (enforce_bounds dt (x_max b + growth_factor * (x_max b - x_min b))))) = Ret v -> 
       v = 0 \/ (Rabs (f v) < tiny /\ in_interval dt v) \/
       exists b' count', sign_change f b' /\ in_interval dt (x_min b') /\ in_interval dt (x_max b') /\
         (2 <= count' <= 1000)%Z /\ impl acc b' count' = Ret v).
    { intros fl c Hc' H'. eapply IH; [| | | | |exact H']; [exact Em|reflexivity|exact Im|apply enforce_in; exact Li|exact Hc']. }
    destruct (Rltb (Rabs (y_min b)) (Rabs (y_max b))); [eapply Dn; [|exact H]; lia|].
    destruct (Rltb (Rabs (y_max b)) (Rabs (y_min b))); [eapply Up; [|exact H]; lia|].
    destruct flip; [eapply Dn|eapply Up]; try exact H; lia.
Qed.

(** every value [solve] returns is numerically a zero, or comes from the
    back-end on a bracket with a sign change inside the enforced interval, or
    is the fallback 0.0 *)
Theorem solve_cases : forall fuel f impl guess dt v, ilo dt <= ihi dt -> in_interval dt guess ->
  solve fuel f impl guess dt = Ret v ->
  v = 0 \/ (Rabs (f v) < tiny /\ in_interval dt v) \/
  exists b count, sign_change f b /\ in_interval dt (x_min b) /\ in_interval dt (x_max b) /\
    (2 <= count <= 1000)%Z /\ impl (Rmax (accuracy dt) eps) b count = Ret v.
Proof.
  intros fuel f impl guess dt v Li Hg H. unfold solve in H.
  destruct (Rltb 0 (accuracy dt)); [|discriminate]. cbn [assertb] in H.  cbv zeta in H.
  destruct (close_zero (f guess)) as [C|C]; [injection H as <-; right; left; split; assumption|].
  destruct (Rltb 0 (f guess)); (eapply solve_loop_cases; [exact Li| | | | | |exact H]);
    cbn [x_min x_max y_min y_max]; try reflexivity; try exact Hg; try (apply enforce_in; exact Li); lia.
Qed.
Print Assumptions solve_cases.
Example solve_cases_case : in_interval (RData (/100) (/1000000) 0 2 true) 1 /\ 0 <= 2 /\
  solve 1000 (fun x => x * x - 1) (bisection_impl 1000 (fun x => x * x - 1)) 1 (RData (/100) (/1000000) 0 2 true) = Ret 1.
Proof.
  split; [intros _; simpl; lra|]. split; [lra|]. unfold solve. cbn [accuracy].
  destruct (Rltb_spec 0 (/1000000)); [|lra]. cbn [assertb]. cbv zeta.
  destruct (close_zero (1 * 1 - 1)) as [_|C]; [reflexivity|]. exfalso. apply C.
  replace (1 * 1 - 1) with 0 by ring. rewrite Rabs_R0. apply tiny_pos.
Qed.

(** bisection, end to end: with an enforced interval, a returned non-zero value
    lies in it; the loops never run out of fuel *)
Lemma bisect_loop_fuel f acc : forall fuel count root dx, (Z.max 0 (1001 - count) < Z.of_nat fuel)%Z ->
  bisect_loop fuel f acc count root dx <> NoFuel.
Proof.
  induction fuel as [|fuel IH]; intros count root dx H.
  - lia.
  - cbn [bisect_loop]. destruct (Z.leb_spec count max_iterations) as [Lc|]; [|discriminate]; unfold max_iterations in Lc.
    cbv zeta. destruct (_ || _); [discriminate|]. apply IH. lia.
Qed.
Lemma newton_loop_fuel f g acc : forall fuel count root fr dfr xl xh dx dxold, (Z.max 0 (1001 - count) < Z.of_nat fuel)%Z ->
  newton_loop fuel f g acc count root fr dfr xl xh dx dxold <> NoFuel.
Proof.
  induction fuel as [|fuel IH]; intros count root fr dfr xl xh dx dxold H.
  - lia.
  - cbn [newton_loop]. destruct (Z.leb_spec count max_iterations) as [Lc|]; [|discriminate]; unfold max_iterations in Lc. cbv zeta.
    destruct (_ || _).
    + destruct (Rltb _ acc); [discriminate|]. destruct (Rltb _ 0); apply IH; lia.
    + destruct (Reqb dfr 0); [discriminate|]. destruct (Rltb _ acc); [discriminate|]. destruct (Rltb _ 0); apply IH; lia.
Qed.
Lemma brent_loop_fuel f acc : forall fuel count root fr d e b, (Z.max 0 (1001 - count) < Z.of_nat fuel)%Z ->
  brent_loop fuel f acc count root fr d e b <> NoFuel.
Proof.
  induction fuel as [|fuel IH]; intros count root fr d e b H.
  - lia.
  - cbn [brent_loop]. destruct (Z.leb_spec count max_iterations) as [Lc|]; [|discriminate]; unfold max_iterations in Lc. cbv zeta.
    destruct (if Rltb _ _ then _ else _) as [[r' fr'] b']. destruct (_ || close fr' 0); [discriminate|].
    destruct (brent_step _ _ _ _ _ _ _). apply IH. lia.
Qed.
Lemma solve_loop_fuel f impl dt acc : (forall a b c, (2 <= c)%Z -> impl a b c <> NoFuel) ->
  forall fuel count flip b, (2 <= count)%Z -> (Z.max 0 (1001 - count) < Z.of_nat fuel)%Z ->
  solve_loop fuel f impl dt acc count flip b <> NoFuel.
Proof.
  intros Hi. induction fuel as [|fuel IH]; intros count flip b H2 H.
  - lia.
  - cbn [solve_loop]. destruct (Z.leb_spec count max_iterations) as [Lc|]; [|discriminate]; unfold max_iterations in Lc.
    destruct (Rleb _ 0).
    + destruct (close (y_min b) 0); [discriminate|]. destruct (close (y_max b) 0); [discriminate|]. apply Hi. exact H2.
    + cbv zeta. destruct (Rltb _ _); [apply IH; lia|]. destruct (Rltb _ _); [apply IH; lia|].
      destruct flip; apply IH; lia.
Qed.
(** [solve] always terminates within its budget; it panics exactly when the accuracy is not positive *)
Theorem solve_total : forall fuel f g guess dt impl, (1000 <= fuel)%nat ->
  impl = bisection_impl fuel f \/ impl = newton_impl fuel f g \/ impl = brent_impl fuel f ->
  solve fuel f impl guess dt <> NoFuel /\ (accuracy dt <= 0 -> solve fuel f impl guess dt = Panic).
Proof.
  intros fuel f g guess dt impl Hfuel Hi. 
  assert (Fi : forall a b c, (2 <= c)%Z -> impl a b c <> NoFuel).
  { intros a b c Hc. destruct Hi as [->|[->| ->]].
    - unfold bisection_impl. destruct (Rltb _ 0); apply bisect_loop_fuel; lia.
    - unfold newton_impl. cbv zeta. apply newton_loop_fuel; lia.
    - unfold brent_impl. apply brent_loop_fuel; lia. }
  unfold solve. split.
  - destruct (Rltb 0 (accuracy dt)); [|discriminate]. cbn [assertb]. cbv zeta.
    destruct (close (f guess) 0); [discriminate|]. apply solve_loop_fuel; [exact Fi|lia|lia].
  - intros H. destruct (Rltb_spec 0 (accuracy dt)); [lra|reflexivity].
Qed.
Print Assumptions solve_total.

(** ** C25: the fallback *)

(** a function bounded away from zero has no root, yet [solve] answers 0.0 *)
Theorem solve_no_root : forall fuel f impl guess dt, (1000 <= fuel)%nat -> 0 < accuracy dt -> (forall x, tiny <= f x) \/ (forall x, f x <= - tiny) ->
  solve fuel f impl guess dt = Ret 0.
Proof.
  intros fuel f impl guess dt Hfuel A H. unfold solve. destruct (Rltb_spec 0 (accuracy dt)); [|lra]. cbn [assertb]. cbv zeta.
  pose proof tiny_pos as T.
  assert (N : forall x, ~ (Rabs (f x) < tiny)).
  { intros x X. destruct H as [H|H]; specialize (H x); [rewrite Rabs_pos_eq in X by lra|rewrite Rabs_left in X by lra]; lra. }
  assert (P : forall x y, 0 < f x * f y).
  { intros x y. destruct H as [H|H]; pose proof (H x); pose proof (H y); nra. }
  destruct (close_zero (f guess)) as [C|_]; [exfalso; exact (N _ C)|].
  assert (L : forall n count flip b, y_min b = f (x_min b) -> y_max b = f (x_max b) -> (Z.max 0 (1001 - count) < Z.of_nat n)%Z ->
    solve_loop n f impl dt (Rmax (accuracy dt) eps) count flip b = Ret 0).
  { induction n as [|n IH]; intros count flip b Em EM Hf.
    - lia.
    - cbn [solve_loop]. destruct (Z.leb_spec count max_iterations) as [Lc|]; [|reflexivity]; unfold max_iterations in Lc.
      destruct (Rleb_spec (y_min b * y_max b) 0) as [X|_]; [rewrite Em, EM in X; pose proof (P (x_min b) (x_max b)); lra|].
      cbv zeta. destruct (Rltb _ _); [apply IH; try reflexivity; try assumption; lia|].
      destruct (Rltb _ _); [apply IH; try reflexivity; try assumption; lia|].
      destruct flip; apply IH; try reflexivity; try assumption; lia. }
  destruct (Rltb 0 (f guess)); apply L; try reflexivity; lia.
Qed.
Print Assumptions solve_no_root.

Theorem solve_never_wrong_refuted : exists f guess dt v, (forall x, 1 <= f x) /\
  (forall fuel, (1000 <= fuel)%nat -> bisection fuel f guess dt = Ret v) /\ f v = 1.
Proof.
  exists (fun x => x * x + 1), 5, (RData 1 (/1000) 0 10 true), 0.
  split; [intros x; nra|]. split; [|ring].
  intros fuel Hf. apply solve_no_root; [exact Hf|simpl; lra|]. left. intros x. pose proof tiny_small. nra.
Qed.
Print Assumptions solve_never_wrong_refuted.

(** what a step of Brent's method is: a bisection step, the secant through the
    two known points when they are all it has, or the point where the quadratic
    in y through the three known points meets y = 0 *)
Definition inverse_quadratic (a fa b fb c fc : R) : R :=
  a * (fb * fc) / ((fa - fb) * (fa - fc)) + b * (fa * fc) / ((fb - fa) * (fb - fc)) + c * (fa * fb) / ((fc - fa) * (fc - fb)).
Theorem brent_step_interpolates : forall root froot x_acc1 d e b d' e', froot <> 0 -> Rabs froot <= Rabs (y_max b) ->
  brent_step root froot (/ 2 * (x_max b - root)) x_acc1 d e b = (d', e') ->
  (d' = / 2 * (x_max b - root) /\ e' = d') \/
  (e' = d /\ 2 * Rabs d' < Rabs e /\
   ((close (x_min b) (x_max b) = true /\ y_min b <> froot /\ d' = - froot * (x_max b - root) / (y_min b - froot)) \/
    (close (x_min b) (x_max b) = false /\ y_min b <> froot /\ y_max b <> froot /\ y_min b <> y_max b /\
     root + d' = inverse_quadratic (x_min b) (y_min b) root froot (x_max b) (y_max b)))).
Proof.
  intros root froot x_acc1 d e b d' e' F L H. unfold brent_step in H. set (xm := / 2 * (x_max b - root)) in *.
  destruct (Rleb x_acc1 (Rabs e)); cbn [andb] in H; [|injection H as <- <-; left; split; reflexivity].
  destruct (Rltb_spec (Rabs froot) (y_min b)) as [M|]; [|injection H as <- <-; left; split; reflexivity].
  destruct (brent_step_divisors froot e b (froot / y_min b) 0 0 0 0 F L M eq_refl) as (N1 & N2 & N3 & _).
  assert (N4 : y_min b <> froot) by (pose proof (Rle_abs froot); lra).
  set (pq := if close (x_min b) (x_max b) then _ else _) in H. destruct pq as [p q] eqn:E. subst pq. cbv zeta in H.
  set (q' := if Rltb 0 p then - q else q) in *.
  set (m2 := Rabs (e * q')) in *. set (m1 := 3 * xm * q' - Rabs (x_acc1 * q')) in *.
  destruct (Rltb_spec (2 * Rabs p) (if Rltb m1 m2 then m1 else m2)) as [T|]; [|injection H as <- <-; left; split; reflexivity].
  injection H as Hd He. right. split; [symmetry; exact He|].
  assert (T2 : 2 * Rabs p < m2) by (destruct (Rltb_spec m1 m2); lra). clear T.
  assert (Q : q <> 0). { intros Z. unfold m2, q' in T2. rewrite Z in T2. replace (if Rltb 0 p then - 0 else 0) with 0 in T2 by (destruct (Rltb 0 p); ring). rewrite Rmult_0_r, Rabs_R0 in T2. pose proof (Rabs_pos p). lra. }
  assert (Q' : Rabs q' = Rabs q) by (unfold q'; destruct (Rltb 0 p); [apply Rabs_Ropp|reflexivity]).
  assert (D : d' = - (p / q)). { rewrite <- Hd. unfold q'. destruct (Rltb_spec 0 p); [rewrite Rabs_pos_eq by lra|rewrite Rabs_left1 by lra]; field; exact Q. }
  split.
  { unfold m2 in T2. rewrite Rabs_mult, Q' in T2. rewrite D, Rabs_Ropp. unfold Rdiv. rewrite Rabs_mult, Rabs_inv. pose proof (Rabs_pos_lt q Q) as P.
    apply Rmult_lt_reg_r with (Rabs q); [exact P|]. replace (2 * (Rabs p * / Rabs q) * Rabs q) with (2 * Rabs p) by (field; lra). lra. }
  destruct (close (x_min b) (x_max b)) eqn:C.
  - left. injection E as <- <-. split; [reflexivity|]. split; [exact N4|]. rewrite D. unfold xm. field. repeat split; lra.
  - right. injection E as <- <-. assert (Z : y_min b / y_max b - 1 <> 0 /\ froot / y_max b - 1 <> 0 /\ froot / y_min b - 1 <> 0) by (repeat split; intros Z; apply Q; rewrite Z; ring).
    destruct Z as (Z1 & Z2 & Z3). split; [reflexivity|]. split; [exact N4|].
    assert (N5 : y_max b <> froot) by (intros X; apply Z2; rewrite <- X; field; exact N2). assert (N6 : y_min b <> y_max b) by (intros X; apply Z1; rewrite X; field; exact N2).
    split; [exact N5|]. split; [exact N6|]. rewrite D. unfold xm, inverse_quadratic. field. repeat split; lra.
Qed.
Print Assumptions brent_step_interpolates.
Example brent_step_case : brent_step 0 (-1) (/ 2 * (4 - 0)) (/ 1000) 5 4 (Bracket 4 4 3 3) = (1, 5).
Proof.
  unfold brent_step, close. cbn [x_min x_max y_min y_max]. destruct (Reqb_spec 4 4); [|lra].
  destruct (Rleb_spec (/ 1000) (Rabs 4)) as [_|X]; [|rewrite Rabs_pos_eq in X; lra]. destruct (Rltb_spec (Rabs (-1)) 3) as [_|X]; [|rewrite Rabs_left in X; lra]. cbn [andb].
  destruct (Rltb_spec 0 (2 * (/ 2 * (4 - 0)) * (-1 / 3))); [lra|]. replace (2 * (/ 2 * (4 - 0)) * (-1 / 3)) with (- (4 / 3)) by field. rewrite (Rabs_left (- (4 / 3))) by lra.
  rewrite !(Rabs_pos_eq (_ * _)) by lra. destruct (Rltb_spec (3 * (/ 2 * (4 - 0)) * (1 - -1 / 3) - / 1000 * (1 - -1 / 3)) (4 * (1 - -1 / 3))); [lra|].
  destruct (Rltb_spec (2 * - - (4 / 3)) (4 * (1 - -1 / 3))); [|lra]. f_equal. field.
Qed.
