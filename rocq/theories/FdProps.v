(** C37-C39: the finite-difference option pricer. *)
From Coq Require Import ZArith Reals List Bool Lra Lia Psatz.
From Verif Require Import Res DateModel InterpModel InterpProofs RList PayoffModel FdModel FdProofs.
Import ListNotations.
Open Scope R_scope.

(** ** C37: the closed-form inverse *)

(** [det_tri c d b n] is the determinant of the n x n tridiagonal matrix, by
    expansion along the last row *)
Fixpoint det_tri (c d b : R) (n : nat) : R :=
  match n with O => 1 | S n' => match n' with O => d | S n'' => d * det_tri c d b n' - b * c * det_tri c d b n'' end end.
Lemma det_Th c d b : forall n, det_tri c d b n = Th d (b * c) (S n) /\ det_tri c d b (S n) = Th d (b * c) (S (S n)).
Proof.
  induction n as [|n [H1 H2]]; [cbn; split; ring|]. split; [exact H2|].
  change (det_tri c d b (S (S n))) with (d * det_tri c d b (S n) - b * c * det_tri c d b n). rewrite H1, H2. rewrite (Th_rec _ _ (S n)). reflexivity.
Qed.
Theorem tridiagonal_inverse : forall c d b n v, (2 <= n)%nat -> length v = n -> det_tri c d b n <> 0 ->
  tri_mul c d b (gen_mul (invert_tri c d b n) v) = Ret v /\
  exists w, tri_mul c d b v = Ret w /\ gen_mul (invert_tri c d b n) w = v.
Proof.
  intros c d b n v L LV D. rewrite (proj1 (det_Th c d b n)) in D. split; [apply invert_right; assumption|].
  destruct (tri_mul_spec c d b v ltac:(lia)) as (w & E & _). exists w. split; [exact E|]. apply (invert_left c d b n v w L LV D E).
Qed.
Print Assumptions tridiagonal_inverse.
(** the product is the matrix product: row i of the result is
    [c v(i-1) + d v(i) + b v(i+1)] *)
Theorem tri_mul_is_product : forall c d b v, (2 <= length v)%nat -> exists w, tri_mul c d b v = Ret w /\ length w = length v /\
  forall i, (i < length v)%nat ->
    nth i w 0 = (match i with O => 0 | S j => c * nth j v 0 end) + d * nth i v 0 + (if (S i <? length v)%nat then b * nth (S i) v 0 else 0).
Proof.
  intros c d b v L. destruct (tri_mul_spec c d b v L) as (w & E & LW & W). exists w. split; [exact E|]. split; [exact LW|].
  intros i Hi. rewrite W by exact Hi. unfold tri_row, prev. destruct (Nat.ltb_spec (S i) (length v)); [|rewrite (@nth_overflow R v (S i) 0) by lia]; destruct i; ring.
Qed.
Print Assumptions tri_mul_is_product.
Example tridiagonal_inverse_case : det_tri (-1) 3 (-1) 3 = 21 /\ tri_mul (-1) 3 (-1) [1; 2; 3] = Ret [3 * 1 + -1 * 2; -1 * 1 + 3 * 2 + -1 * 3; -1 * 2 + 3 * 3].
Proof. split; [cbn; lra|reflexivity]. Qed.

(** the matrices of the implicit and Crank-Nicolson schemes are invertible,
    whatever the parameters *)
Lemma Th_implicit_pos x y : 0 <= x -> forall k, 0 < Th (1 + 2 * x) ((- x - y) * (- x + y)) (S k).
Proof.
  intros X. set (e := (- x - y) * (- x + y)). assert (E : e = x * x - y * y) by (unfold e; ring). clearbody e.
  pose proof (Rabs_pos y) as A. assert (Y : y * y = Rabs y * Rabs y) by (rewrite <- Rabs_mult; symmetry; apply Rabs_pos_eq, Rle_0_sqr).
  rewrite Y in E. clear Y. set (q := Rabs y) in *. clearbody q.
  destruct (Rle_dec q x) as [Q|Q].
  - cut (forall k, 0 <= Th (1 + 2 * x) e k /\ 0 < Th (1 + 2 * x) e (S k) /\ (x + q) * Th (1 + 2 * x) e k <= Th (1 + 2 * x) e (S k)).
    { intros H k. apply H. }
    induction k as [|k (H1 & H2 & H3)]; [cbn; split; [lra|split; lra]|]. rewrite Th_rec.
    set (a := Th (1 + 2 * x) e k) in *. set (b := Th (1 + 2 * x) e (S k)) in *. clearbody a b.
    assert (F : (1 + (x + q)) * b <= (1 + 2 * x) * b - e * a).
    { assert ((x - q) * ((x + q) * a) <= (x - q) * b) by (apply Rmult_le_compat_l; lra). subst e. nra. }
    assert (0 <= (x + q) * b) by (apply Rmult_le_pos; lra). split; [lra|]. split; lra.
  - cut (forall k, 0 <= Th (1 + 2 * x) e k /\ 0 < Th (1 + 2 * x) e (S k)).
    { intros H k. apply H. }
    induction k as [|k (H1 & H2)]; [cbn; split; lra|]. rewrite Th_rec.
    set (a := Th (1 + 2 * x) e k) in *. set (b := Th (1 + 2 * x) e (S k)) in *. clearbody a b.
    assert (0 <= - e * a) by (apply Rmult_le_pos; [subst e; nra|lra]). assert (0 <= x * b) by (apply Rmult_le_pos; lra). split; lra.
Qed.
Lemma det_implicit_pos x y n : 0 <= x -> 0 < det_tri (- x + y) (1 + 2 * x) (- x - y) n.
Proof. intros X. rewrite (proj1 (det_Th _ _ _ n)). apply Th_implicit_pos, X. Qed.

(** a one-equation system is inverted wrongly: the result is not the solution
    for any right-hand side but zero *)
Theorem tridiagonal_inverse_size_one_refuted : forall x y rhs, 0 < x -> rhs <> 0 ->
  exists w, gen_mul (invert_tri (- x + y) (1 + 2 * x) (- x - y) 1) [rhs] = [w] /\ (1 + 2 * x) * w <> rhs.
Proof.
  intros x y rhs X N. eexists. split; [reflexivity|]. cbn. set (D := (1 + 2 * x) * (1 + 2 * x) - (- x - y) * (- x + y)).
  assert (D0 : 1 + 2 * x < D) by (unfold D; nra). intros E.
  assert (E2 : (1 + 2 * x) * rhs = D * rhs) by (rewrite <- E at 2; field; lra). apply Rmult_eq_reg_r in E2; [lra|exact N].
Qed.
Print Assumptions tridiagonal_inverse_size_one_refuted.

(** ** validity of a pricer *)
Definition fd_valid (m : fd) : Prop :=
  0 < f_s m /\ 0 < f_k m /\ 0 < f_r m /\ 0 < f_v m /\ 0 < f_T m /\ (1 <= f_nt m)%nat /\ (3 <= f_np m)%nat.
Lemma fd_valid_new m : fd_ok m = true -> 0 < f_T m -> (3 <= f_np m)%nat -> fd_valid m.
Proof.
  unfold fd_ok, fd_valid. intros H T P. rewrite !andb_true_iff in H. destruct H as (((((H1 & H2) & H3) & H4) & H5) & H6).
  destruct (Rltb_spec 0 (f_s m)); [|discriminate]. destruct (Rltb_spec 0 (f_k m)); [|discriminate]. destruct (Rltb_spec 0 (f_r m)); [|discriminate]. destruct (Rltb_spec 0 (f_v m)); [|discriminate].
  apply Nat.ltb_lt in H5. repeat split; try assumption; lia.
Qed.

Section Grid.
  Variable m : fd.
  Hypothesis V : fd_valid m.
  Let n := (f_np m - 1)%nat.
  Lemma V_parts : 0 < f_s m /\ 0 < f_k m /\ 0 < f_r m /\ 0 < f_v m /\ 0 < f_T m /\ 0 < INR (f_nt m) /\ 0 < INR (f_np m) /\ 0 < sqrt (f_T m) /\ (2 <= n)%nat.
  Proof.
    destruct V as (a & b & c & d & e & f & g). repeat split; try assumption; try (apply lt_0_INR; lia); [apply sqrt_lt_R0; assumption|unfold n; lia].
  Qed.
  Lemma dt_pos : 0 < dt m.
  Proof. destruct V_parts as (_ & _ & _ & _ & T & N & _). apply Rdiv_lt_0_compat; assumption. Qed.
  Lemma dx_val : dx m = 10 * f_v m * sqrt (f_T m) / INR (f_np m).
  Proof. unfold dx, x_max, x_min. f_equal. ring. Qed.
  Lemma dx_pos : 0 < dx m.
  Proof. destruct V_parts as (_ & _ & _ & v & T & _ & N & S & _). rewrite dx_val. apply Rdiv_lt_0_compat; [|exact N]. repeat apply Rmult_lt_0_compat; lra. Qed.
  Lemma cx_val : cx m = INR (f_np m) ^ 2 / (200 * INR (f_nt m)).
  Proof.
    destruct V_parts as (_ & _ & _ & v & T & N & P & S & _). unfold cx, dt. rewrite dx_val. assert (Q : f_T m = sqrt (f_T m) * sqrt (f_T m)) by (symmetry; apply sqrt_sqrt; lra).
    set (w := sqrt (f_T m)) in *. rewrite Q. field. lra.
  Qed.
  Lemma cx_pos : 0 < cx m.
  Proof. destruct V_parts as (_ & _ & _ & v & T & N & P & S & _). rewrite cx_val. apply Rdiv_lt_0_compat; [apply pow_lt; exact P|lra]. Qed.
  Lemma cy_bound : Rabs (f_r m - / 2 * f_v m ^ 2) * dx m <= f_v m ^ 2 -> - cx m <= cy m <= cx m.
  Proof.
    intros H. pose proof dt_pos as D. pose proof dx_pos as X. set (g := f_r m - / 2 * f_v m ^ 2) in *.
    assert (K : 0 < dt m / (2 * dx m ^ 2)) by (apply Rdiv_lt_0_compat; [exact D|]; pose proof (pow_lt _ 2 X); lra).
    assert (E1 : cx m = dt m / (2 * dx m ^ 2) * f_v m ^ 2) by (unfold cx; field; lra).
    assert (E2 : cy m = dt m / (2 * dx m ^ 2) * (g * dx m)) by (unfold cy; fold g; field; lra).
    assert (A : - (f_v m ^ 2) <= g * dx m <= f_v m ^ 2) by (unfold Rabs in H; destruct (Rcase_abs g); nra).
    rewrite E1, E2. split; nra.
  Qed.
  Lemma cx_explicit : INR (f_np m) ^ 2 <= 100 * INR (f_nt m) -> cx m <= / 2.
  Proof.
    intros H. destruct V_parts as (_ & _ & _ & v & T & N & P & S & _). rewrite cx_val. apply Rmult_le_reg_r with (200 * INR (f_nt m)); [lra|]. unfold Rdiv. rewrite Rmult_assoc, Rinv_l by lra. lra.
  Qed.
  Lemma cx_cn : INR (f_np m) ^ 2 <= 200 * INR (f_nt m) -> cx m <= 1.
  Proof.
    intros H. destruct V_parts as (_ & _ & _ & v & T & N & P & S & _). rewrite cx_val. apply Rmult_le_reg_r with (200 * INR (f_nt m)); [lra|]. unfold Rdiv. rewrite Rmult_assoc, Rinv_l by lra. lra.
  Qed.
End Grid.

(** ** vectors *)
Definition vle (n : nat) (u v : list R) : Prop := length u = n /\ length v = n /\ forall i, (i < n)%nat -> nth i u 0 <= nth i v 0.
Lemma prev_le n u v : vle n u v -> forall j, prev u j <= prev v j.
Proof.
  intros (L1 & L2 & H) [|j]; [cbn; lra|]. cbn [prev]. destruct (Nat.lt_ge_cases j n) as [J|J]; [apply H, J|]. rewrite !nth_overflow by lia. lra.
Qed.
Lemma vle_trans n u v w : vle n u v -> vle n v w -> vle n u w.
Proof. intros (L1 & L2 & H) (L3 & L4 & H'). repeat split; try assumption. intros i Hi. specialize (H i Hi). specialize (H' i Hi). lra. Qed.
Lemma vle_refl n u : length u = n -> vle n u u.
Proof. intros L. repeat split; try assumption. intros; lra. Qed.

Lemma add_at_spec i x v : (i < length v)%nat -> exists w, add_at i x v = Ret w /\ length w = length v /\
  forall k, nth k w 0 = nth k v 0 + (if (k =? i)%nat then x else 0).
Proof.
  intros H. unfold add_at. destruct (nth_error v i) as [y|] eqn:E; [|apply nth_error_None in E; lia]. eexists. split; [reflexivity|].
  destruct (nth_error_split v i E) as (l1 & l2 & -> & L). clear E H.
  assert (F : firstn i (l1 ++ y :: l2) = l1) by (rewrite <- L, firstn_app, Nat.sub_diag, firstn_all; apply app_nil_r).
  assert (K : skipn (S i) (l1 ++ y :: l2) = l2).
  { change (y :: l2) with ([y] ++ l2). rewrite app_assoc. rewrite skipn_app, skipn_all2 by (rewrite app_length; cbn; lia). rewrite app_length. cbn [length]. replace (S i - (length l1 + 1))%nat with O by lia. reflexivity. }
  rewrite F, K. split; [rewrite !app_length; reflexivity|].
  intros k. destruct (Nat.eqb_spec k i) as [->|N].
  - rewrite !app_nth2 by lia. rewrite L, Nat.sub_diag. cbn [nth]. ring.
  - destruct (Nat.lt_ge_cases k i) as [Q|Q]; [rewrite !app_nth1 by lia; ring|]. rewrite !app_nth2 by lia. destruct (k - length l1)%nat eqn:Z; [lia|]. cbn [nth]. ring.
Qed.

Lemma tri_mono n c d b u v : 0 <= c -> 0 <= d -> 0 <= b -> (2 <= n)%nat -> vle n u v ->
  exists u' v', tri_mul c d b u = Ret u' /\ tri_mul c d b v = Ret v' /\ vle n u' v'.
Proof.
  intros C D B L H. pose proof (prev_le n u v H) as P. destruct H as (L1 & L2 & _).
  destruct (tri_mul_spec c d b u ltac:(lia)) as (u' & E1 & LU & U). destruct (tri_mul_spec c d b v ltac:(lia)) as (v' & E2 & LV & W).
  exists u', v'. split; [exact E1|]. split; [exact E2|]. repeat split; try lia. intros i Hi. rewrite U, W by lia. unfold tri_row.
  change (nth i u 0) with (prev u (S i)). change (nth i v 0) with (prev v (S i)). change (nth (S i) u 0) with (prev u (S (S i))). change (nth (S i) v 0) with (prev v (S (S i))).
  pose proof (Rmult_le_compat_l c _ _ C (P i)). pose proof (Rmult_le_compat_l d _ _ D (P (S i))). pose proof (Rmult_le_compat_l b _ _ B (P (S (S i)))). lra.
Qed.
Lemma G_nonneg c d b N i j : c <= 0 -> b <= 0 -> (forall k, 0 <= Th d (b * c) k) -> 0 <= G c d b N i j.
Proof.
  intros C B H. unfold G. destruct (i <=? j)%nat; (apply Rmult_le_pos; [apply Rmult_le_pos; [apply pow_le; lra|apply H]|apply H]).
Qed.
Lemma Th_nonneg x y : 0 <= x -> forall k, 0 <= Th (1 + 2 * x) ((- x - y) * (- x + y)) k.
Proof. intros X [|k]; [cbn; lra|]. apply Rlt_le, Th_implicit_pos, X. Qed.
Lemma inv_mono n x y u v : 0 <= x -> - x <= y <= x -> (2 <= n)%nat -> vle n u v ->
  vle n (gen_mul (invert_tri (- x + y) (1 + 2 * x) (- x - y) n) u) (gen_mul (invert_tri (- x + y) (1 + 2 * x) (- x - y) n) v).
Proof.
  intros X Y L H. pose proof (prev_le n u v H) as P. destruct H as (L1 & L2 & _).
  destruct (gen_mul_invert (- x + y) (1 + 2 * x) (- x - y) n u L L1) as [LU U]. destruct (gen_mul_invert (- x + y) (1 + 2 * x) (- x - y) n v L L2) as [LV W].
  repeat split; try assumption. intros i Hi. rewrite U, W by exact Hi. apply sm_le. intros j _.
  apply Rmult_le_compat_l; [|apply P]. pose proof (Th_implicit_pos x y X n). apply Rmult_le_pos; [apply G_nonneg; [lra|lra|apply Th_nonneg, X]|apply Rlt_le, Rinv_0_lt_compat; assumption].
Qed.

(** the boundary contribution to entry [k] *)
Definition bval (m : fd) (wc wp : R) (t k : nat) : R :=
  match f_tf m with
  | Call => if (k =? f_np m - 2)%nat then wc * call_boundary m (INR t * dt m) (x_max m) else 0
  | Put => if (k =? 0)%nat then wp * put_boundary m (INR t * dt m) (x_min m) else 0
  end.
Lemma add_boundary_spec m wc wp t v : fd_valid m -> length v = (f_np m - 1)%nat -> exists w, add_boundary m wc wp t v = Ret w /\ length w = length v /\
  forall k, nth k w 0 = nth k v 0 + bval m wc wp t k.
Proof.
  intros V L. destruct V as (_ & _ & _ & _ & _ & _ & V). unfold add_boundary, bval. destruct (f_tf m).
  - destruct (Nat.ltb_spec (f_np m) 2); [lia|]. apply add_at_spec. lia.
  - apply add_at_spec. lia.
Qed.
Lemma add_boundary_mono m wc wp t u v : fd_valid m -> vle (f_np m - 1) u v ->
  exists u' v', add_boundary m wc wp t u = Ret u' /\ add_boundary m wc wp t v = Ret v' /\ vle (f_np m - 1) u' v'.
Proof.
  intros V (L1 & L2 & H). destruct (add_boundary_spec m wc wp t u V L1) as (u' & E1 & LU & U). destruct (add_boundary_spec m wc wp t v V L2) as (v' & E2 & LV & W).
  exists u', v'. split; [exact E1|]. split; [exact E2|]. repeat split; try lia. intros i Hi. rewrite U, W. specialize (H i Hi). lra.
Qed.

(** one step without exercise *)
Definition explicit_lin m t v := let! v1 := tri_mul (cx m - cy m) (1 - 2 * cx m) (cx m + cy m) v in add_boundary m (cx m + cy m) (cx m - cy m) t v1.
Definition implicit_lin m t v := let! v1 := add_boundary m (- (- cx m - cy m)) (- (- cx m + cy m)) t v in Ret (gen_mul (invert_tri (- cx m + cy m) (1 + 2 * cx m) (- cx m - cy m) (f_np m - 1)) v1).
Definition cn_lin m t v := 
  let! v1 := tri_mul (/ 2 * (cx m - cy m)) (1 - cx m) (/ 2 * (cx m + cy m)) v in
  let! v2 := add_boundary m (2 * (/ 2 * (cx m + cy m))) (2 * (/ 2 * (cx m - cy m))) t v1 in
  Ret (gen_mul (invert_tri (- (/ 2 * (cx m - cy m))) (1 + cx m) (- (/ 2 * (cx m + cy m))) (f_np m - 1)) v2).
Lemma cn_inverse m : let a := / 2 * cx m in let e := / 2 * cy m in
  - (/ 2 * (cx m - cy m)) = - a + e /\ 1 + cx m = 1 + 2 * a /\ - (/ 2 * (cx m + cy m)) = - a - e.
Proof. cbv zeta. repeat split; field. Qed.
Definition exercising (m : fd) (lin : nat -> list R -> res (list R)) (t : nat) (v : list R) : res (list R) :=
  let! w := lin t v in Ret (maybe_exercise m w (INR t * dt m)).
Lemma explicit_step_lin m t v : explicit_step m t v = exercising m (explicit_lin m) t v.
Proof. unfold explicit_step, exercising, explicit_lin. destruct (tri_mul _ _ _ v); [cbn [bind]|reflexivity|reflexivity]. reflexivity. Qed.
Lemma implicit_step_lin m t v : implicit_step m t v = exercising m (implicit_lin m) t v.
Proof. unfold implicit_step, exercising, implicit_lin. destruct (add_boundary _ _ _ _ v); reflexivity. Qed.
Lemma cn_step_lin m t v : cn_step m t v = exercising m (cn_lin m) t v.
Proof.
  unfold cn_step, exercising, cn_lin. cbv zeta. destruct (tri_mul _ _ _ v) as [v1| |]; [cbn [bind]|reflexivity|reflexivity].
  destruct (add_boundary _ _ _ _ v1); reflexivity.
Qed.

(** ** what one step computes: the explicit scheme applies its matrix, the
    implicit ones solve their linear system exactly *)
Definition op (c d b : R) (v : list R) (i : nat) : R :=
  (match i with O => 0 | S j => c * nth j v 0 end) + d * nth i v 0 + b * nth (S i) v 0.
Lemma op_row c d b v i : op c d b v i = tri_row c d b v i.
Proof. unfold op, tri_row, prev. destruct i; ring. Qed.
Definition boundary (m : fd) (t i : nat) : R :=
  let tau := INR t * (f_T m / INR (f_nt m)) in
  match f_tf m with
  | Call => if (i =? f_np m - 2)%nat then exp (x_max m) - f_k m * exp (- f_r m * tau) else 0
  | Put => if (i =? 0)%nat then f_k m * exp (- f_r m * tau) - exp (x_min m) else 0
  end.
Lemma bval_boundary m wc wp t i : bval m wc wp t i = (match f_tf m with Call => wc | Put => wp end) * boundary m t i.
Proof. unfold bval, boundary, call_boundary, put_boundary, dt. destruct (f_tf m); [destruct (i =? f_np m - 2)%nat|destruct (i =? 0)%nat]; ring. Qed.
Definition bweight (m : fd) : R := match f_tf m with Call => cx m + cy m | Put => cx m - cy m end.
Lemma op_solve c d b v u n : (2 <= n)%nat -> length v = n -> tri_mul c d b v = Ret u -> forall i, (i < n)%nat -> op c d b v i = nth i u 0.
Proof. intros L LV E i Hi. destruct (tri_mul_spec c d b v ltac:(lia)) as (w & E' & _ & W). rewrite E in E'. injection E' as <-. rewrite op_row, W by lia. reflexivity. Qed.

Lemma fd_lin_solves : forall m t v, fd_valid m -> length v = (f_np m - 1)%nat ->
  (exists w, explicit_lin m t v = Ret w /\ length w = length v /\ forall i, (i < length v)%nat ->
    nth i w 0 = op (cx m - cy m) (1 - 2 * cx m) (cx m + cy m) v i + bweight m * boundary m t i) /\
  (exists w, implicit_lin m t v = Ret w /\ length w = length v /\ forall i, (i < length v)%nat ->
    op (- (cx m - cy m)) (1 + 2 * cx m) (- (cx m + cy m)) w i = nth i v 0 + bweight m * boundary m t i) /\
  (exists w, cn_lin m t v = Ret w /\ length w = length v /\ forall i, (i < length v)%nat ->
    op (- ((cx m - cy m) / 2)) (1 + cx m) (- ((cx m + cy m) / 2)) w i = op ((cx m - cy m) / 2) (1 - cx m) ((cx m + cy m) / 2) v i + bweight m * boundary m t i).
Proof.
  intros m t v V L. assert (N2 : (2 <= f_np m - 1)%nat) by (destruct V as (_ & _ & _ & _ & _ & _ & V); lia). pose proof (cx_pos m V) as X. split; [|split].
  - unfold explicit_lin. destruct (tri_mul_spec (cx m - cy m) (1 - 2 * cx m) (cx m + cy m) v ltac:(lia)) as (v1 & -> & L1 & H1). cbn [bind].
    destruct (add_boundary_spec m (cx m + cy m) (cx m - cy m) t v1 V ltac:(lia)) as (w & -> & LW & W). exists w. split; [reflexivity|]. split; [lia|].
    intros i Hi. rewrite W, H1 by exact Hi. rewrite op_row, bval_boundary. unfold bweight. destruct (f_tf m); reflexivity.
  - unfold implicit_lin. destruct (add_boundary_spec m (- (- cx m - cy m)) (- (- cx m + cy m)) t v V L) as (v1 & -> & L1 & H1). cbn [bind].
    eexists. split; [reflexivity|]. destruct (gen_mul_invert (- cx m + cy m) (1 + 2 * cx m) (- cx m - cy m) (f_np m - 1) v1 N2 ltac:(lia)) as [LW _]. split; [lia|].
    intros i Hi. replace (- (cx m - cy m)) with (- cx m + cy m) by ring. replace (- (cx m + cy m)) with (- cx m - cy m) by ring.
    pose proof (invert_right (- cx m + cy m) (1 + 2 * cx m) (- cx m - cy m) (f_np m - 1) v1 N2 ltac:(lia) (Rgt_not_eq _ _ (Th_implicit_pos _ _ (Rlt_le _ _ X) _))) as R1.
    rewrite (op_solve _ _ _ _ _ _ N2 LW R1) by lia. rewrite H1, bval_boundary. unfold bweight. destruct (f_tf m); ring.
  - unfold cn_lin. destruct (tri_mul_spec (/ 2 * (cx m - cy m)) (1 - cx m) (/ 2 * (cx m + cy m)) v ltac:(lia)) as (v1 & -> & L1 & H1). cbn [bind].
    destruct (add_boundary_spec m (2 * (/ 2 * (cx m + cy m))) (2 * (/ 2 * (cx m - cy m))) t v1 V ltac:(lia)) as (v2 & -> & L2 & H2). cbn [bind].
    destruct (cn_inverse m) as (-> & -> & ->). set (a := / 2 * cx m). set (e := / 2 * cy m).
    eexists. split; [reflexivity|]. destruct (gen_mul_invert (- a + e) (1 + 2 * a) (- a - e) (f_np m - 1) v2 N2 ltac:(lia)) as [LW _]. split; [lia|].
    intros i Hi. replace (- ((cx m - cy m) / 2)) with (- a + e) by (unfold a, e; field). replace (- ((cx m + cy m) / 2)) with (- a - e) by (unfold a, e; field).
    assert (A0 : 0 <= a) by (unfold a; lra).
    pose proof (invert_right (- a + e) (1 + 2 * a) (- a - e) (f_np m - 1) v2 N2 ltac:(lia) (Rgt_not_eq _ _ (Th_implicit_pos _ _ A0 _))) as R1.
    replace (1 + cx m) with (1 + 2 * a) by (unfold a; field).
    rewrite (op_solve _ _ _ _ _ _ N2 LW R1) by lia. rewrite H2, H1, bval_boundary by exact Hi. replace ((cx m - cy m) / 2) with (/ 2 * (cx m - cy m)) by field. replace ((cx m + cy m) / 2) with (/ 2 * (cx m + cy m)) by field.
    rewrite op_row. unfold bweight. destruct (f_tf m); field.
Qed.
Theorem fd_step_solves : forall m t v, fd_valid m -> length v = (f_np m - 1)%nat ->
  (exists w, explicit_step m t v = Ret (maybe_exercise m w (INR t * (f_T m / INR (f_nt m)))) /\ length w = length v /\ forall i, (i < length v)%nat ->
    nth i w 0 = op (cx m - cy m) (1 - 2 * cx m) (cx m + cy m) v i + bweight m * boundary m t i) /\
  (exists w, implicit_step m t v = Ret (maybe_exercise m w (INR t * (f_T m / INR (f_nt m)))) /\ length w = length v /\ forall i, (i < length v)%nat ->
    op (- (cx m - cy m)) (1 + 2 * cx m) (- (cx m + cy m)) w i = nth i v 0 + bweight m * boundary m t i) /\
  (exists w, cn_step m t v = Ret (maybe_exercise m w (INR t * (f_T m / INR (f_nt m)))) /\ length w = length v /\ forall i, (i < length v)%nat ->
    op (- ((cx m - cy m) / 2)) (1 + cx m) (- ((cx m + cy m) / 2)) w i = op ((cx m - cy m) / 2) (1 - cx m) ((cx m + cy m) / 2) v i + bweight m * boundary m t i).
Proof.
  intros m t v V L. destruct (fd_lin_solves m t v V L) as ((w1 & E1 & H1) & (w2 & E2 & H2) & (w3 & E3 & H3)).
  rewrite explicit_step_lin, implicit_step_lin, cn_step_lin. unfold exercising. rewrite E1, E2, E3. cbn [bind].
  split; [exists w1|split; [exists w2|exists w3]]; (split; [reflexivity|assumption]).
Qed.
Print Assumptions fd_step_solves.

(** ** the time loop *)
Lemma fold_res_rel (step step' : nat -> list R -> res (list R)) (P : nat -> list R -> list R -> Prop) : forall k t v v',
  P t v v' -> (forall s u u', (t <= s < t + k)%nat -> P s u u' -> exists w w', step (S s) u = Ret w /\ step' (S s) u' = Ret w' /\ P (S s) w w') ->
  exists w w', fold_left (fun acc t => let! v := acc in step t v) (seq (S t) k) (Ret v) = Ret w /\
    fold_left (fun acc t => let! v := acc in step' t v) (seq (S t) k) (Ret v') = Ret w' /\ P (t + k)%nat w w'.
Proof.
  induction k as [|k IH]; intros t v v' H S; [exists v, v'; rewrite Nat.add_0_r; repeat split; assumption|].
  destruct (S t v v' ltac:(lia) H) as (w & w' & E & E' & Q). cbn [seq fold_left bind]. rewrite E, E'.
  destruct (IH (Datatypes.S t) w w' Q) as (z & z' & F & F' & Z); [intros; apply S; [lia|assumption]|]. exists z, z'. split; [exact F|]. split; [exact F'|].
  replace (t + Datatypes.S k)%nat with (Datatypes.S t + k)%nat by lia. exact Z.
Qed.
Lemma loop_rel m m' step step' (P : nat -> list R -> list R -> Prop) : f_nt m' = f_nt m -> P O (initial_condition m) (initial_condition m') ->
  (forall s u u', (s < f_nt m)%nat -> P s u u' -> exists w w', step (S s) u = Ret w /\ step' (S s) u' = Ret w' /\ P (S s) w w') ->
  exists w w', time_loop m step = Ret w /\ time_loop m' step' = Ret w' /\ P (f_nt m) w w'.
Proof.
  intros E H S. unfold time_loop. rewrite E. apply (fold_res_rel step step' P (f_nt m) O _ _ H). intros s u u' Hs. apply S. lia.
Qed.
Lemma loop_inv m step (P : nat -> list R -> Prop) : P O (initial_condition m) ->
  (forall s u, (s < f_nt m)%nat -> P s u -> exists w, step (S s) u = Ret w /\ P (S s) w) ->
  exists w, time_loop m step = Ret w /\ P (f_nt m) w.
Proof.
  intros H S. destruct (loop_rel m m step step (fun t u u' => P t u /\ u' = u) eq_refl (conj H eq_refl)) as (w & w' & E & _ & Q & _).
  - intros s u u' Hs [Hu ->]. destruct (S s u Hs Hu) as (w & E & Q). exists w, w. repeat split; assumption.
  - exists w. split; assumption.
Qed.

Lemma initial_length m : length (initial_condition m) = (f_np m - 1)%nat.
Proof. unfold initial_condition. rewrite map_length, seq_length. reflexivity. Qed.
Lemma nth_seq1 (f : nat -> R) k i : (i < k)%nat -> nth i (map f (seq 1 k)) 0 = f (S i).
Proof. intros H. rewrite (nth_indep _ 0 (f O)) by (rewrite map_length, seq_length; exact H). rewrite map_nth, seq_nth by exact H. reflexivity. Qed.
Lemma initial_nth m i : (i < f_np m - 1)%nat -> nth i (initial_condition m) 0 = payoff m (exp (node m (S i))).
Proof. intros H. unfold initial_condition. apply (nth_seq1 (fun i => payoff m (exp (node m i)))), H. Qed.
Lemma exercise_length m v tau : length v = (f_np m - 1)%nat -> length (maybe_exercise m v tau) = (f_np m - 1)%nat.
Proof. intros L. unfold maybe_exercise. destruct (early_exercise m); [|exact L]. unfold american_step. rewrite map_length, seq_length. reflexivity. Qed.
Lemma exercise_nth m v tau i : (i < f_np m - 1)%nat -> nth i (maybe_exercise m v tau) 0 =
  if early_exercise m then Rmax (nth i v 0) (exp (f_r m * tau) * payoff m (exp (node m (S i)))) else nth i v 0.
Proof.
  intros H. unfold maybe_exercise. destruct (early_exercise m); [|reflexivity]. unfold american_step.
  rewrite (nth_seq1 (fun i => Rmax (nth (i - 1) v 0) (exp (f_r m * tau) * payoff m (exp (node m i))))) by exact H. replace (S i - 1)%nat with i by lia. reflexivity.
Qed.

(** the price is read at, or averaged around, the middle of the grid *)
Definition mid1 (m : fd) : nat := ((f_np m - 1) / 2)%nat.
Definition mid2 (m : fd) : nat := if (f_np m mod 2 =? 0)%nat then mid1 m else ((f_np m - 3) / 2)%nat.
Lemma mids m : fd_valid m -> (mid1 m < f_np m - 1)%nat /\ (mid2 m < f_np m - 1)%nat.
Proof.
  intros V. assert (N : (3 <= f_np m)%nat) by (destruct V as (_ & _ & _ & _ & _ & _ & V); exact V). unfold mid1, mid2. set (p := f_np m) in *.
  assert (A : ((p - 1) / 2 < p - 1)%nat) by (apply Nat.div_lt; lia). split; [exact A|]. destruct (p mod 2 =? 0)%nat; [exact A|].
  assert ((p - 3) / 2 <= p - 3)%nat by (apply Nat.div_le_upper_bound; lia). lia.
Qed.
Lemma return_price_spec m u : fd_valid m -> length u = (f_np m - 1)%nat -> return_price m u = Ret ((nth (mid1 m) u 0 + nth (mid2 m) u 0) / 2).
Proof.
  intros V L. destruct (mids m V) as [M1 M2]. assert (N : (3 <= f_np m)%nat) by (destruct V as (_ & _ & _ & _ & _ & _ & V); exact V).
  unfold return_price, mid2, mid1 in *. assert (Q : forall k, (k < length u)%nat -> unwrap (nth_error u k) = Ret (nth k u 0)).
  { intros k Hk. rewrite (nth_error_nth' u 0 Hk). reflexivity. }
  destruct (f_np m mod 2 =? 0)%nat.
  - rewrite Q by lia. f_equal. field.
  - destruct (Nat.ltb_spec (f_np m) 3); [lia|]. rewrite !Q by lia. reflexivity.
Qed.
Lemma finish_spec m w : fd_valid m -> length w = (f_np m - 1)%nat -> finish m (Ret w) = Ret (exp (- f_r m * f_T m) * ((nth (mid1 m) w 0 + nth (mid2 m) w 0) / 2)).
Proof. intros V L. unfold finish. cbn [bind]. rewrite return_price_spec by assumption. reflexivity. Qed.

Inductive scheme := Explicit | Implicit | CrankNicolson.
Definition price_of (k : scheme) (m : fd) : res R := match k with Explicit => explicit m | Implicit => implicit m | CrankNicolson => crank_nicolson m end.
Definition step_of (k : scheme) (m : fd) := match k with Explicit => explicit_step m | Implicit => implicit_step m | CrankNicolson => cn_step m end.
Definition lin_of (k : scheme) (m : fd) := match k with Explicit => explicit_lin m | Implicit => implicit_lin m | CrankNicolson => cn_lin m end.
Lemma price_of_eq k m : price_of k m = finish m (time_loop m (step_of k m)).
Proof. destruct k; reflexivity. Qed.
Lemma step_of_eq k m t v : step_of k m t v = exercising m (lin_of k m) t v.
Proof. destruct k; [apply explicit_step_lin|apply implicit_step_lin|apply cn_step_lin]. Qed.
Lemma lin_total k m t v : fd_valid m -> length v = (f_np m - 1)%nat -> exists w, lin_of k m t v = Ret w /\ length w = (f_np m - 1)%nat.
Proof.
  intros V L. destruct (fd_lin_solves m t v V L) as ((w1 & E1 & H1 & _) & (w2 & E2 & H2 & _) & (w3 & E3 & H3 & _)). destruct k; [exists w1|exists w2|exists w3]; split; try assumption; lia.
Qed.

(** with three or more price steps no scheme panics; with fewer the explicit and
    Crank-Nicolson schemes always do, although the constructor accepts them *)
Theorem fd_total : forall k m, fd_valid m -> exists p, price_of k m = Ret p.
Proof.
  intros k m V. rewrite price_of_eq. destruct (loop_inv m (step_of k m) (fun _ v => length v = (f_np m - 1)%nat)) as (w & E & L).
  - apply initial_length.
  - intros s u _ L. rewrite step_of_eq. unfold exercising. destruct (lin_total k m (S s) u V L) as (w & -> & LW). cbn [bind]. eexists. split; [reflexivity|]. apply exercise_length, LW.
  - rewrite E, finish_spec by assumption. eexists. reflexivity.
Qed.
Print Assumptions fd_total.
Lemma loop_panic m step : (1 <= f_nt m)%nat -> (step 1%nat (initial_condition m) = Panic) -> time_loop m step = Panic.
Proof.
  intros N H. unfold time_loop. destruct (f_nt m) as [|k]; [lia|]. cbn [seq fold_left bind]. rewrite H. clear. generalize 2%nat. induction k as [|k IH]; intros t; [reflexivity|]. cbn [seq fold_left bind]. apply IH.
Qed.
Theorem fd_small_grid_panics : forall m, fd_ok m = true -> (f_np m <= 2)%nat ->
  explicit m = Panic /\ crank_nicolson m = Panic /\ (f_np m = 1%nat -> implicit m = Panic).
Proof.
  intros m V N. unfold fd_ok in V. rewrite !andb_true_iff in V. destruct V as ((_ & V1) & V2). apply Nat.ltb_lt in V1, V2.
  assert (L : (length (initial_condition m) < 2)%nat) by (rewrite initial_length; lia).
  unfold explicit, crank_nicolson, implicit. split; [|split].
  - rewrite loop_panic; [reflexivity|lia|]. unfold explicit_step. rewrite tri_mul_short by exact L. reflexivity.
  - rewrite loop_panic; [reflexivity|lia|]. unfold cn_step. rewrite tri_mul_short by exact L. reflexivity.
  - intros E. rewrite loop_panic; [reflexivity|lia|]. unfold implicit_step, add_boundary, add_at, initial_condition. rewrite E. cbn. destruct (f_tf m); reflexivity.
Qed.
Print Assumptions fd_small_grid_panics.

(** ** C39: stability *)
Definition stable (k : scheme) (m : fd) : Prop :=
  (* the drift does not dominate the diffusion over one cell *)
  Rabs (f_r m - / 2 * f_v m ^ 2) * (10 * f_v m * sqrt (f_T m) / INR (f_np m)) <= f_v m ^ 2 /\
  match k with Explicit => INR (f_np m) ^ 2 <= 100 * INR (f_nt m) | Implicit => True | CrankNicolson => INR (f_np m) ^ 2 <= 200 * INR (f_nt m) end.
Lemma stable_bounds k m : fd_valid m -> stable k m -> - cx m <= cy m <= cx m /\ 0 < cx m /\
  match k with Explicit => cx m <= / 2 | Implicit => True | CrankNicolson => cx m <= 1 end.
Proof.
  intros V (S1 & S2). rewrite <- (dx_val m) in S1. split; [apply cy_bound; assumption|]. split; [apply cx_pos, V|].
  destruct k; [apply cx_explicit; assumption|exact I|apply cx_cn; assumption].
Qed.
Lemma lin_mono k m t u v : fd_valid m -> stable k m -> vle (f_np m - 1) u v ->
  exists u' v', lin_of k m t u = Ret u' /\ lin_of k m t v = Ret v' /\ vle (f_np m - 1) u' v'.
Proof.
  intros V S H. destruct (stable_bounds k m V S) as (Y & X & Z). assert (N2 : (2 <= f_np m - 1)%nat) by (destruct V as (_ & _ & _ & _ & _ & _ & V); lia).
  destruct k; cbn [lin_of].
  - unfold explicit_lin. destruct (tri_mono (f_np m - 1) (cx m - cy m) (1 - 2 * cx m) (cx m + cy m) u v ltac:(lra) ltac:(lra) ltac:(lra) N2 H) as (u1 & v1 & -> & -> & H1). cbn [bind].
    apply add_boundary_mono; assumption.
  - unfold implicit_lin. destruct (add_boundary_mono m (- (- cx m - cy m)) (- (- cx m + cy m)) t u v V H) as (u1 & v1 & -> & -> & H1). cbn [bind].
    do 2 eexists. split; [reflexivity|]. split; [reflexivity|]. apply inv_mono; [lra|assumption|assumption|assumption].
  - unfold cn_lin. destruct (tri_mono (f_np m - 1) (/ 2 * (cx m - cy m)) (1 - cx m) (/ 2 * (cx m + cy m)) u v ltac:(lra) ltac:(lra) ltac:(lra) N2 H) as (u1 & v1 & -> & -> & H1). cbn [bind].
    destruct (add_boundary_mono m (2 * (/ 2 * (cx m + cy m))) (2 * (/ 2 * (cx m - cy m))) t u1 v1 V H1) as (u2 & v2 & -> & -> & H2). cbn [bind].
    do 2 eexists. split; [reflexivity|]. split; [reflexivity|]. destruct (cn_inverse m) as (-> & -> & ->). apply inv_mono; [lra|lra|assumption|assumption].
Qed.

(** the same step with different boundary data *)
Definition same_grid (m m' : fd) : Prop :=
  f_s m' = f_s m /\ f_r m' = f_r m /\ f_v m' = f_v m /\ f_T m' = f_T m /\ f_nt m' = f_nt m /\ f_np m' = f_np m /\ f_tf m' = f_tf m.
Lemma same_coeffs m m' : same_grid m m' -> cx m' = cx m /\ cy m' = cy m /\ dt m' = dt m /\ x_min m' = x_min m /\ x_max m' = x_max m /\ dx m' = dx m.
Proof.
  intros (E1 & E2 & E3 & E4 & E5 & E6 & E7). assert (A : dt m' = dt m) by (unfold dt; rewrite E4, E5; reflexivity).
  assert (B : x_min m' = x_min m) by (unfold x_min; rewrite E1, E3, E4; reflexivity). assert (C : x_max m' = x_max m) by (unfold x_max; rewrite E1, E3, E4; reflexivity).
  assert (D : dx m' = dx m) by (unfold dx; rewrite B, C, E6; reflexivity).
  repeat split; try assumption; [unfold cx; rewrite A, D, E3; reflexivity|unfold cy; rewrite A, D, E2, E3; reflexivity].
Qed.
Lemma add_boundary_rel m m' wc wp t u v : fd_valid m -> fd_valid m' -> same_grid m m' -> 0 <= wc -> 0 <= wp -> (forall i, boundary m t i <= boundary m' t i) -> vle (f_np m - 1) u v ->
  exists u' v', add_boundary m wc wp t u = Ret u' /\ add_boundary m' wc wp t v = Ret v' /\ vle (f_np m - 1) u' v'.
Proof.
  intros V V' SG WC WP B (L1 & L2 & H). assert (NP : f_np m' = f_np m) by apply SG. assert (TF : f_tf m' = f_tf m) by apply SG.
  destruct (add_boundary_spec m wc wp t u V L1) as (u' & E1 & LU & U). destruct (add_boundary_spec m' wc wp t v V' ltac:(lia)) as (v' & E2 & LV & W).
  exists u', v'. split; [exact E1|]. split; [exact E2|]. repeat split; try lia. intros i Hi. rewrite U, W, !bval_boundary, TF. specialize (H i Hi).
  assert ((match f_tf m with Call => wc | Put => wp end) * boundary m t i <= (match f_tf m with Call => wc | Put => wp end) * boundary m' t i) by (apply Rmult_le_compat_l; [destruct (f_tf m); assumption|apply B]). lra.
Qed.
Lemma lin_rel k m m' t u v : fd_valid m -> fd_valid m' -> same_grid m m' -> stable k m -> (forall i, boundary m t i <= boundary m' t i) -> vle (f_np m - 1) u v ->
  exists u' v', lin_of k m t u = Ret u' /\ lin_of k m' t v = Ret v' /\ vle (f_np m - 1) u' v'.
Proof.
  intros V V' SG S B H. destruct (stable_bounds k m V S) as (Y & X & Z). assert (N2 : (2 <= f_np m - 1)%nat) by (destruct V as (_ & _ & _ & _ & _ & _ & V); lia).
  destruct (same_coeffs m m' SG) as (EX & EY & _). assert (NP : f_np m' = f_np m) by apply SG.
  destruct k; cbn [lin_of].
  - unfold explicit_lin. rewrite EX, EY. destruct (tri_mono (f_np m - 1) (cx m - cy m) (1 - 2 * cx m) (cx m + cy m) u v ltac:(lra) ltac:(lra) ltac:(lra) N2 H) as (u1 & v1 & -> & -> & H1). cbn [bind].
    apply add_boundary_rel; assumption || lra.
  - unfold implicit_lin. rewrite EX, EY, NP. destruct (add_boundary_rel m m' (- (- cx m - cy m)) (- (- cx m + cy m)) t u v V V' SG ltac:(lra) ltac:(lra) B H) as (u1 & v1 & -> & -> & H1). cbn [bind].
    do 2 eexists. split; [reflexivity|]. split; [reflexivity|]. apply inv_mono; [lra|assumption|assumption|assumption].
  - unfold cn_lin. rewrite EX, EY, NP. destruct (tri_mono (f_np m - 1) (/ 2 * (cx m - cy m)) (1 - cx m) (/ 2 * (cx m + cy m)) u v ltac:(lra) ltac:(lra) ltac:(lra) N2 H) as (u1 & v1 & -> & -> & H1). cbn [bind].
    destruct (add_boundary_rel m m' (2 * (/ 2 * (cx m + cy m))) (2 * (/ 2 * (cx m - cy m))) t u1 v1 V V' SG ltac:(lra) ltac:(lra) B H1) as (u2 & v2 & -> & -> & H2). cbn [bind].
    do 2 eexists. split; [reflexivity|]. split; [reflexivity|]. destruct (cn_inverse m) as (-> & -> & ->). apply inv_mono; [lra|lra|assumption|assumption].
Qed.

(** comparison of two pricers on the same grid: larger payoff, larger boundary
    values and more exercise rights give a larger price *)
Lemma compare k m m' : fd_valid m -> fd_valid m' -> same_grid m m' -> stable k m ->
  (forall s, payoff m s <= payoff m' s) -> (forall t i, (1 <= t)%nat -> boundary m t i <= boundary m' t i) -> (early_exercise m = true -> early_exercise m' = true) ->
  exists p p', price_of k m = Ret p /\ price_of k m' = Ret p' /\ p <= p'.
Proof.
  intros V V' SG S HP HB HE. destruct (same_coeffs m m' SG) as (EX & EY & ED & EM & EMx & EDx). assert (NP : f_np m' = f_np m) by apply SG. assert (ER : f_r m' = f_r m) by apply SG. assert (ET : f_T m' = f_T m) by apply SG.
  assert (EN : forall i, node m' i = node m i) by (intros; unfold node; rewrite EM, EDx; reflexivity).
  destruct (loop_rel m m' (step_of k m) (step_of k m') (fun _ => vle (f_np m - 1))) as (w & w' & E & E' & L1 & L2 & H).
  - apply SG.
  - repeat split; [apply initial_length|rewrite initial_length, NP; reflexivity|]. intros i Hi. rewrite !initial_nth by lia. rewrite EN. apply HP.
  - intros s u u' Hs Hu. rewrite !step_of_eq. unfold exercising. destruct (lin_rel k m m' (Datatypes.S s) u u' V V' SG S (fun i => HB (Datatypes.S s) i ltac:(lia)) Hu) as (a & b & -> & -> & L1 & L2 & H). cbn [bind].
    do 2 eexists. split; [reflexivity|]. split; [reflexivity|]. split; [apply exercise_length, L1|]. split; [rewrite exercise_length; lia|].
    intros i Hi. rewrite !exercise_nth by lia. specialize (H i Hi). rewrite ED, ER, EN. pose proof (exp_pos (f_r m * (INR (Datatypes.S s) * dt m))) as XP.
    pose proof (Rmult_le_compat_l _ _ _ (Rlt_le _ _ XP) (HP (exp (node m (Datatypes.S i))))) as Q.
    destruct (early_exercise m); [rewrite (HE eq_refl); unfold Rmax; repeat destruct Rle_dec; lra|]. destruct (early_exercise m'); [unfold Rmax; destruct Rle_dec; lra|exact H].
  - rewrite !price_of_eq, E, E', !finish_spec by (assumption || lia). do 2 eexists. split; [reflexivity|]. split; [reflexivity|].
    rewrite ER, ET. unfold mid1, mid2, mid1. rewrite NP. destruct (mids m V) as [M1 M2]. unfold mid1, mid2, mid1 in M1, M2. pose proof (H _ M1). pose proof (H _ M2).
    apply Rmult_le_compat_l; [apply Rlt_le, exp_pos|]. lra.
Qed.

Lemma M_matrix n x y u v : 0 <= x -> - x <= y <= x -> (2 <= n)%nat -> length u = n -> length v = n ->
  (forall i, (i < n)%nat -> tri_row (- x + y) (1 + 2 * x) (- x - y) u i <= tri_row (- x + y) (1 + 2 * x) (- x - y) v i) -> vle n u v.
Proof.
  intros X Y N LU LV H. destruct (tri_mul_spec (- x + y) (1 + 2 * x) (- x - y) u ltac:(lia)) as (u' & EU & LU' & U). destruct (tri_mul_spec (- x + y) (1 + 2 * x) (- x - y) v ltac:(lia)) as (v' & EV & LV' & W).
  pose proof (Rgt_not_eq _ _ (Th_implicit_pos x y X n)) as T0.
  rewrite <- (invert_left _ _ _ n u u' N LU T0 EU), <- (invert_left _ _ _ n v v' N LV T0 EV). apply inv_mono; try assumption.
  repeat split; try lia. intros i Hi. rewrite U, W by lia. apply H, Hi.
Qed.
Lemma nth_repeat_lt (a : R) n i : (i < n)%nat -> nth i (repeat a n) 0 = a.
Proof. revert i. induction n as [|n IH]; intros i H; [lia|]. destruct i; [reflexivity|]. cbn. apply IH. lia. Qed.
Lemma tri_row_const c d b a n i : (i < n)%nat -> tri_row c d b (repeat a n) i = c * (if (i =? 0)%nat then 0 else a) + d * a + b * (if (S i =? n)%nat then 0 else a).
Proof.
  intros H. unfold tri_row. rewrite nth_repeat_lt by exact H. f_equal; [f_equal|].
  - destruct i; [reflexivity|]. cbn [prev Nat.eqb]. rewrite nth_repeat_lt by lia. reflexivity.
  - destruct (Nat.eqb_spec (S i) n); [rewrite nth_overflow by (rewrite repeat_length; lia)|rewrite nth_repeat_lt by lia]; reflexivity.
Qed.
Lemma tri_row_le n c d b u v i : 0 <= c -> 0 <= d -> 0 <= b -> vle n u v -> tri_row c d b u i <= tri_row c d b v i.
Proof.
  intros C D B H. pose proof (prev_le n u v H) as P. unfold tri_row.
  pose proof (Rmult_le_compat_l c _ _ C (P i)). pose proof (Rmult_le_compat_l d _ _ D (P (S i))). pose proof (Rmult_le_compat_l b _ _ B (P (S (S i)))). cbn [prev] in *. lra.
Qed.
(** boundary terms are at the edges *)
Lemma bd_cap k m t M i : fd_valid m -> stable k m -> 0 <= M -> (forall i, boundary m t i <= M) -> (i < f_np m - 1)%nat ->
  bweight m * boundary m t i <= (cx m - cy m) * (if (i =? 0)%nat then M else 0) + (cx m + cy m) * (if (S i =? f_np m - 1)%nat then M else 0).
Proof.
  intros V S M0 B Hi. destruct (stable_bounds k m V S) as (Y & X & _). specialize (B i). unfold bweight, boundary in *. destruct (f_tf m).
  - destruct (Nat.eqb_spec i (f_np m - 2)) as [E|E].
    + destruct (Nat.eqb_spec (Datatypes.S i) (f_np m - 1)); [|lia]. assert (0 <= (cx m - cy m) * (if (i =? 0)%nat then M else 0)) by (apply Rmult_le_pos; [lra|destruct (i =? 0)%nat; lra]).
      pose proof (Rmult_le_compat_l (cx m + cy m) _ _ ltac:(lra) B). lra.
    + pose proof (Rmult_le_pos (cx m - cy m) M ltac:(lra) M0). pose proof (Rmult_le_pos (cx m + cy m) M ltac:(lra) M0). repeat match goal with |- context [if ?b then _ else _] => destruct b end; lra.
  - destruct (Nat.eqb_spec i 0) as [E|E].
    + assert (0 <= (cx m + cy m) * (if (Datatypes.S i =? f_np m - 1)%nat then M else 0)) by (apply Rmult_le_pos; [lra|destruct (Datatypes.S i =? f_np m - 1)%nat; lra]).
      pose proof (Rmult_le_compat_l (cx m - cy m) _ _ ltac:(lra) B). lra.
    + pose proof (Rmult_le_pos (cx m - cy m) M ltac:(lra) M0). pose proof (Rmult_le_pos (cx m + cy m) M ltac:(lra) M0). repeat match goal with |- context [if ?b then _ else _] => destruct b end; lra.
Qed.
Lemma bd_floor k m t i : fd_valid m -> stable k m -> (forall i, 0 <= boundary m t i) -> 0 <= bweight m * boundary m t i.
Proof. intros V S B. destruct (stable_bounds k m V S) as (Y & X & _). apply Rmult_le_pos; [unfold bweight; destruct (f_tf m); lra|apply B]. Qed.

Lemma lin_floor k m t v : fd_valid m -> stable k m -> (forall i, 0 <= boundary m t i) -> vle (f_np m - 1) (repeat 0 (f_np m - 1)) v ->
  exists w, lin_of k m t v = Ret w /\ vle (f_np m - 1) (repeat 0 (f_np m - 1)) w.
Proof.
  intros V S B H. destruct (stable_bounds k m V S) as (Y & X & Z). assert (N2 : (2 <= f_np m - 1)%nat) by (destruct V as (_ & _ & _ & _ & _ & _ & V); lia).
  pose proof (bd_floor k m t) as BF. assert (LV : length v = (f_np m - 1)%nat) by apply H.
  destruct (fd_lin_solves m t v V LV) as ((w1 & E1 & L1 & H1) & (w2 & E2 & L2 & H2) & (w3 & E3 & L3 & H3)).
  assert (LR : length (repeat 0 (f_np m - 1)) = (f_np m - 1)%nat) by apply repeat_length.
  assert (Z0 : forall c d b i, (i < f_np m - 1)%nat -> tri_row c d b (repeat 0 (f_np m - 1)) i = 0).
  { intros c d b i Hi. rewrite tri_row_const by exact Hi. destruct (i =? 0)%nat, (Datatypes.S i =? f_np m - 1)%nat; ring. }
  destruct k; cbn [lin_of].
  - exists w1. split; [exact E1|]. repeat split; try lia. intros i Hi. rewrite H1, op_row by lia. rewrite nth_repeat_lt by exact Hi.
    pose proof (tri_row_le _ (cx m - cy m) (1 - 2 * cx m) (cx m + cy m) _ _ i ltac:(lra) ltac:(lra) ltac:(lra) H) as T. rewrite Z0 in T by exact Hi. pose proof (BF i V S B). lra.
  - exists w2. split; [exact E2|]. apply (M_matrix _ (cx m) (cy m)); try lia; try lra. intros i Hi. rewrite Z0 by exact Hi.
    replace (- cx m + cy m) with (- (cx m - cy m)) by ring. replace (- cx m - cy m) with (- (cx m + cy m)) by ring. rewrite <- op_row, H2 by lia.
    destruct H as (_ & _ & H). specialize (H i Hi). rewrite nth_repeat_lt in H by exact Hi. pose proof (BF i V S B). lra.
  - exists w3. split; [exact E3|]. apply (M_matrix _ (cx m / 2) (cy m / 2)); try lia; try lra. intros i Hi. rewrite Z0 by exact Hi.
    replace (- (cx m / 2) + cy m / 2) with (- ((cx m - cy m) / 2)) by field. replace (- (cx m / 2) - cy m / 2) with (- ((cx m + cy m) / 2)) by field. replace (1 + 2 * (cx m / 2)) with (1 + cx m) by field. rewrite <- op_row, H3, op_row by lia.
    pose proof (tri_row_le _ ((cx m - cy m) / 2) (1 - cx m) ((cx m + cy m) / 2) _ _ i ltac:(lra) ltac:(lra) ltac:(lra) H) as T. rewrite Z0 in T by exact Hi. pose proof (BF i V S B). lra.
Qed.
Lemma lin_cap k m t v M : fd_valid m -> stable k m -> 0 <= M -> (forall i, boundary m t i <= M) -> vle (f_np m - 1) v (repeat M (f_np m - 1)) ->
  exists w, lin_of k m t v = Ret w /\ vle (f_np m - 1) w (repeat M (f_np m - 1)).
Proof.
  intros V S M0 B H. destruct (stable_bounds k m V S) as (Y & X & Z). assert (N2 : (2 <= f_np m - 1)%nat) by (destruct V as (_ & _ & _ & _ & _ & _ & V); lia).
  assert (LV : length v = (f_np m - 1)%nat) by apply H.
  destruct (fd_lin_solves m t v V LV) as ((w1 & E1 & L1 & H1) & (w2 & E2 & L2 & H2) & (w3 & E3 & L3 & H3)).
  assert (LR : length (repeat M (f_np m - 1)) = (f_np m - 1)%nat) by apply repeat_length.
  destruct k; cbn [lin_of].
  - exists w1. split; [exact E1|]. repeat split; try lia. intros i Hi. rewrite H1, op_row by lia. rewrite nth_repeat_lt by exact Hi.
    pose proof (tri_row_le _ (cx m - cy m) (1 - 2 * cx m) (cx m + cy m) _ _ i ltac:(lra) ltac:(lra) ltac:(lra) H) as T. rewrite tri_row_const in T by exact Hi. pose proof (bd_cap _ m t M i V S M0 B Hi) as BC.
    destruct (i =? 0)%nat, (Datatypes.S i =? f_np m - 1)%nat; lra.
  - exists w2. split; [exact E2|]. apply (M_matrix _ (cx m) (cy m)); try lia; try lra. intros i Hi. rewrite tri_row_const by exact Hi.
    replace (- cx m + cy m) with (- (cx m - cy m)) by ring. replace (- cx m - cy m) with (- (cx m + cy m)) by ring. rewrite <- op_row, H2 by lia.
    destruct H as (_ & _ & H). specialize (H i Hi). rewrite nth_repeat_lt in H by exact Hi. pose proof (bd_cap _ m t M i V S M0 B Hi) as BC.
    destruct (i =? 0)%nat, (Datatypes.S i =? f_np m - 1)%nat; lra.
  - exists w3. split; [exact E3|]. apply (M_matrix _ (cx m / 2) (cy m / 2)); try lia; try lra. intros i Hi. rewrite tri_row_const by exact Hi.
    replace (- (cx m / 2) + cy m / 2) with (- ((cx m - cy m) / 2)) by field. replace (- (cx m / 2) - cy m / 2) with (- ((cx m + cy m) / 2)) by field. replace (1 + 2 * (cx m / 2)) with (1 + cx m) by field. rewrite <- op_row, H3, op_row by lia.
    pose proof (tri_row_le _ ((cx m - cy m) / 2) (1 - cx m) ((cx m + cy m) / 2) _ _ i ltac:(lra) ltac:(lra) ltac:(lra) H) as T. rewrite tri_row_const in T by exact Hi. pose proof (bd_cap _ m t M i V S M0 B Hi) as BC.
    destruct (i =? 0)%nat, (Datatypes.S i =? f_np m - 1)%nat; lra.
Qed.

Lemma payoff_nonneg m s : 0 <= payoff m s.
Proof. unfold payoff. destruct (f_tf m); apply Rmax_r. Qed.

(** values stay non-negative and below the cap *)
Lemma price_floor k m : fd_valid m -> stable k m -> (forall t i, (1 <= t <= f_nt m)%nat -> 0 <= boundary m t i) -> exists p, price_of k m = Ret p /\ 0 <= p.
Proof.
  intros V S B. rewrite price_of_eq. destruct (loop_inv m (step_of k m) (fun _ v => vle (f_np m - 1) (repeat 0 (f_np m - 1)) v)) as (w & E & _ & L & H).
  - repeat split; [apply repeat_length|apply initial_length|]. intros i Hi. rewrite initial_nth, nth_repeat_lt by exact Hi. apply payoff_nonneg.
  - intros s u Hs H. rewrite step_of_eq. unfold exercising. destruct (lin_floor k m (Datatypes.S s) u V S (fun i => B (Datatypes.S s) i ltac:(lia)) H) as (w & -> & LR & LW & W). cbn [bind]. eexists. split; [reflexivity|].
    repeat split; [exact LR|apply exercise_length, LW|]. intros i Hi. rewrite exercise_nth by exact Hi. specialize (W i Hi). destruct (early_exercise m); [|exact W]. eapply Rle_trans; [exact W|apply Rmax_l].
  - rewrite E, finish_spec by assumption. eexists. split; [reflexivity|]. destruct (mids m V) as [M1 M2]. pose proof (H _ M1) as H1. pose proof (H _ M2) as H2. rewrite nth_repeat_lt in H1, H2 by assumption.
    apply Rmult_le_pos; [apply Rlt_le, exp_pos|lra].
Qed.
Lemma price_cap k m (M : nat -> R) : fd_valid m -> stable k m -> (forall t, 0 <= M t) -> (forall t, M t <= M (S t)) ->
  (forall t i, (1 <= t)%nat -> boundary m t i <= M t) -> (forall s, 0 < s -> payoff m s <= M O) ->
  (early_exercise m = true -> forall t s, 0 < s -> exp (f_r m * (INR t * dt m)) * payoff m s <= M t) ->
  exists p, price_of k m = Ret p /\ p <= exp (- f_r m * f_T m) * M (f_nt m).
Proof.
  intros V S M0 MI B P0 PE. rewrite price_of_eq. destruct (loop_inv m (step_of k m) (fun t v => vle (f_np m - 1) v (repeat (M t) (f_np m - 1)))) as (w & E & L & _ & H).
  - repeat split; [apply initial_length|apply repeat_length|]. intros i Hi. rewrite initial_nth, nth_repeat_lt by exact Hi. apply P0, exp_pos.
  - intros s u Hs H. rewrite step_of_eq. unfold exercising.
    assert (H' : vle (f_np m - 1) u (repeat (M (Datatypes.S s)) (f_np m - 1))).
    { apply (vle_trans _ _ _ _ H). repeat split; try apply repeat_length. intros i Hi. rewrite !nth_repeat_lt by exact Hi. apply MI. }
    destruct (lin_cap k m (Datatypes.S s) u (M (Datatypes.S s)) V S (M0 _) (fun i => B (Datatypes.S s) i ltac:(lia)) H') as (w & -> & LW & LR & W). cbn [bind]. eexists. split; [reflexivity|].
    repeat split; [apply exercise_length, LW|exact LR|]. intros i Hi. rewrite exercise_nth by exact Hi. specialize (W i Hi). rewrite nth_repeat_lt in * by exact Hi. destruct (early_exercise m); [|exact W]. apply Rmax_lub; [exact W|apply PE; [reflexivity|apply exp_pos]].
  - rewrite E, finish_spec by assumption. eexists. split; [reflexivity|]. destruct (mids m V) as [M1 M2]. pose proof (H _ M1) as H1. pose proof (H _ M2) as H2. rewrite nth_repeat_lt in H1, H2 by assumption.
    apply Rmult_le_compat_l; [apply Rlt_le, exp_pos|lra].
Qed.

Lemma tau_le m t : fd_valid m -> (t <= f_nt m)%nat -> INR t * (f_T m / INR (f_nt m)) <= f_T m.
Proof.
  intros V H. destruct (V_parts m V) as (_ & _ & _ & _ & T & N & _). apply le_INR in H.
  replace (f_T m) with (INR (f_nt m) * (f_T m / INR (f_nt m))) at 2 by (field; lra). apply Rmult_le_compat_r; [apply Rlt_le, Rdiv_lt_0_compat; assumption|exact H].
Qed.
Lemma tau_nonneg m t : fd_valid m -> 0 <= INR t * (f_T m / INR (f_nt m)).
Proof. intros V. destruct (V_parts m V) as (_ & _ & _ & _ & T & N & _). apply Rmult_le_pos; [apply pos_INR|apply Rlt_le, Rdiv_lt_0_compat; assumption]. Qed.
Lemma exp_neg_le_1 a : 0 <= a -> exp (- a) <= 1.
Proof. intros H. apply Rle_trans with (exp 0); [|rewrite exp_0; lra]. destruct (Req_dec a 0) as [->|N]; [rewrite Ropp_0; lra|]. apply Rlt_le, exp_increasing. lra. Qed.
Lemma exp_le a b : a <= b -> exp a <= exp b.
Proof. intros [H| ->]; [apply Rlt_le, exp_increasing, H|lra]. Qed.

(** *** C39: positivity and bounds *)
Theorem fd_put_bounds : forall k m, fd_valid m -> stable k m -> f_tf m = Put ->
  (* the grid reaches below the discounted strike *)
  exp (x_min m) <= f_k m * exp (- f_r m * f_T m) ->
  exists p, price_of k m = Ret p /\ 0 <= p <= f_k m /\ (early_exercise m = false -> p <= f_k m * exp (- f_r m * f_T m)).
Proof.
  intros k m V S TF HX. destruct (V_parts m V) as (_ & K & R & _ & T & N & _).
  assert (P0 : forall s, 0 < s -> payoff m s <= f_k m) by (intros s Hs; unfold payoff; rewrite TF; apply Rmax_lub; lra).
  assert (B1 : forall t i, (1 <= t <= f_nt m)%nat -> 0 <= boundary m t i).
  { intros t i Ht. unfold boundary. rewrite TF. destruct (i =? 0)%nat; [|lra]. pose proof (tau_le m t V ltac:(lia)) as TL.
    assert (exp (- f_r m * f_T m) <= exp (- f_r m * (INR t * (f_T m / INR (f_nt m))))) by (apply exp_le; nra). nra. }
  assert (B2 : forall t i, (1 <= t)%nat -> boundary m t i <= f_k m).
  { intros t i Ht. unfold boundary. rewrite TF. destruct (i =? 0)%nat; [|lra]. pose proof (tau_nonneg m t V) as TL. pose proof (exp_pos (x_min m)).
    replace (- f_r m * (INR t * (f_T m / INR (f_nt m)))) with (- (f_r m * (INR t * (f_T m / INR (f_nt m))))) by ring. pose proof (exp_neg_le_1 (f_r m * (INR t * (f_T m / INR (f_nt m)))) ltac:(nra)). nra. }
  destruct (price_floor k m V S B1) as (p & E & F). exists p. split; [exact E|].
  pose proof (dt_pos m V) as D.
  destruct (price_cap k m (fun t => f_k m * exp (f_r m * (INR t * dt m))) V S) as (p' & E' & C).
  - intros t. apply Rmult_le_pos; [lra|apply Rlt_le, exp_pos].
  - intros t. apply Rmult_le_compat_l; [lra|]. apply exp_le. rewrite S_INR. nra.
  - intros t i Ht. specialize (B2 t i Ht). pose proof (pos_INR t). assert (exp 0 <= exp (f_r m * (INR t * dt m))) by (apply exp_le; apply Rmult_le_pos; [lra|apply Rmult_le_pos; lra]). rewrite exp_0 in *. nra.
  - intros s Hs. change (INR 0) with 0; rewrite Rmult_0_l, Rmult_0_r, exp_0, Rmult_1_r. apply P0, Hs.
  - intros _ t s Hs. specialize (P0 s Hs). pose proof (exp_pos (f_r m * (INR t * dt m))). nra.
  - assert (p' = p) as -> by congruence. split; [split; [exact F|]|].
    + replace (f_k m) with (exp (- f_r m * f_T m) * (f_k m * exp (f_r m * (INR (f_nt m) * dt m)))); [exact C|].
      replace (exp (- f_r m * f_T m) * (f_k m * exp (f_r m * (INR (f_nt m) * dt m)))) with (f_k m * (exp (- f_r m * f_T m) * exp (f_r m * (INR (f_nt m) * dt m)))) by ring.
      rewrite <- exp_plus. replace (- f_r m * f_T m + f_r m * (INR (f_nt m) * dt m)) with 0 by (unfold dt; field; lra). rewrite exp_0. ring.
    + intros EU. destruct (price_cap k m (fun _ => f_k m) V S) as (p2 & E2 & C2); try (intros; lra); [intros; apply B2; assumption|exact P0|intros Q; congruence|].
      assert (p2 = p) as -> by congruence. lra.
Qed.
Print Assumptions fd_put_bounds.
Theorem fd_call_nonneg : forall k m, fd_valid m -> stable k m -> f_tf m = Call ->
  (* the grid reaches above the strike *)
  f_k m <= exp (x_max m) -> exists p, price_of k m = Ret p /\ 0 <= p.
Proof.
  intros k m V S TF HX. apply price_floor; try assumption. intros t i Ht. unfold boundary. rewrite TF. destruct (i =? f_np m - 2)%nat; [|lra].
  destruct (V_parts m V) as (_ & K & R & _ & T & N & _). pose proof (tau_nonneg m t V) as TL.
  replace (- f_r m * (INR t * (f_T m / INR (f_nt m)))) with (- (f_r m * (INR t * (f_T m / INR (f_nt m))))) by ring.
  pose proof (exp_neg_le_1 (f_r m * (INR t * (f_T m / INR (f_nt m)))) ltac:(nra)). nra.
Qed.
Print Assumptions fd_call_nonneg.

Definition with_k (m : fd) (k : R) : fd := Fd (f_s m) k (f_r m) (f_v m) (f_T m) (f_nt m) (f_np m) (f_tf m) (f_ex m).
Definition with_ex (m : fd) (e : exercise_flag) : fd := Fd (f_s m) (f_k m) (f_r m) (f_v m) (f_T m) (f_nt m) (f_np m) (f_tf m) e.
Lemma valid_with_k m k : fd_valid m -> 0 < k -> fd_valid (with_k m k).
Proof. unfold fd_valid, with_k. cbn. tauto. Qed.
Lemma valid_with_ex m e : fd_valid m -> fd_valid (with_ex m e).
Proof. unfold fd_valid, with_ex. cbn. tauto. Qed.
(** prices are monotone in the strike, with either exercise style *)
Theorem fd_monotone_in_strike : forall s m k', fd_valid m -> stable s m -> f_k m <= k' ->
  exists p p', price_of s m = Ret p /\ price_of s (with_k m k') = Ret p' /\ (match f_tf m with Call => p' <= p | Put => p <= p' end).
Proof.
  intros s m k' V S HK. assert (K0 : 0 < f_k m) by apply V. assert (V' := valid_with_k m k' V ltac:(lra)).
  assert (SG : same_grid m (with_k m k')) by (repeat split). destruct (f_tf m) eqn:TF.
  - destruct (compare s (with_k m k') m) as (p' & p & E' & E & L).
    + exact V'.
    + exact V.
    + repeat split.
    + exact S.
    + intros x. unfold payoff. cbn [with_k f_tf f_k]. rewrite TF. apply Rle_max_compat_r. lra.
    + intros t i _. unfold boundary. cbn [with_k f_tf f_k f_r f_T f_nt f_np]. change (x_max (with_k m k')) with (x_max m). rewrite TF. destruct (i =? f_np m - 2)%nat; [|lra].
      pose proof (exp_pos (- f_r m * (INR t * (f_T m / INR (f_nt m))))). nra.
    + intros H. exact H.
    + exists p, p'. repeat split; assumption.
  - destruct (compare s m (with_k m k')) as (p & p' & E & E' & L).
    + exact V.
    + exact V'.
    + exact SG.
    + exact S.
    + intros x. unfold payoff. cbn [with_k f_tf f_k]. rewrite TF. apply Rle_max_compat_r. lra.
    + intros t i _. unfold boundary. cbn [with_k f_tf f_k f_r f_T f_nt f_np]. change (x_min (with_k m k')) with (x_min m). rewrite TF. destruct (i =? 0)%nat; [|lra].
      pose proof (exp_pos (- f_r m * (INR t * (f_T m / INR (f_nt m))))). nra.
    + intros H. exact H.
    + exists p, p'. repeat split; assumption.
Qed.
Print Assumptions fd_monotone_in_strike.

(** ** C38: early exercise *)
(** when it is recognised, early exercise is worth at least as much as the same
    option without it, and at least the immediate payoff *)
Theorem fd_american_dominates : forall s m e, fd_valid m -> stable s m -> early_exercise m = true ->
  exists p p', price_of s (with_ex m e) = Ret p' /\ price_of s m = Ret p /\ p' <= p.
Proof.
  intros s m e V S E. destruct (compare s (with_ex m e) m) as (p' & p & E' & Ep & L).
  - apply valid_with_ex, V.
  - exact V.
  - repeat split.
  - exact S.
  - intros x. apply Rle_refl.
  - intros t i _. apply Rle_refl.
  - intros _. exact E.
  - exists p, p'. repeat split; assumption.
Qed.
Print Assumptions fd_american_dominates.
Theorem fd_american_intrinsic : forall s m, fd_valid m -> early_exercise m = true -> Nat.even (f_np m) = true ->
  exists p, price_of s m = Ret p /\ payoff m (f_s m) <= p.
Proof.
  intros s m V EE EV. rewrite price_of_eq. destruct (V_parts m V) as (S0 & _ & _ & _ & T & NT & NP & _).
  destruct (loop_inv m (step_of s m) (fun t v => length v = (f_np m - 1)%nat /\ ((1 <= t)%nat -> forall i, (i < f_np m - 1)%nat -> exp (f_r m * (INR t * dt m)) * payoff m (exp (node m (S i))) <= nth i v 0))) as (w & E & L & H).
  - split; [apply initial_length|lia].
  - intros t u _ [L _]. rewrite step_of_eq. unfold exercising. destruct (lin_total s m (S t) u V L) as (w & -> & LW). cbn [bind]. eexists. split; [reflexivity|]. split; [apply exercise_length, LW|].
    intros _ i Hi. rewrite exercise_nth, EE by exact Hi. apply Rmax_r.
  - rewrite E, finish_spec by assumption. eexists. split; [reflexivity|]. destruct (mids m V) as [M1 _]. destruct V as (_ & _ & _ & _ & _ & N1 & N3).
    specialize (H ltac:(lia) _ M1). apply Nat.even_spec in EV. destruct EV as [q Q].
    assert (Emod : (f_np m mod 2 =? 0)%nat = true) by (rewrite Q, Nat.mul_comm, Nat.mod_mul by lia; reflexivity).
    unfold mid2. rewrite Emod. assert (Em : S (mid1 m) = q).
    { unfold mid1. rewrite Q. replace (2 * q - 1)%nat with (1 + (q - 1) * 2)%nat by lia. rewrite Nat.div_add by lia. cbn. lia. }
    rewrite Em in H. assert (En : exp (node m q) = f_s m).
    { unfold node, dx, x_max, x_min. rewrite Q, mult_INR. replace (INR 2) with 2 by (cbn; lra). assert (INR q <> 0) by (apply not_0_INR; lia).
      replace (ln (f_s m) - 5 * f_v m * sqrt (f_T m) + INR q * ((ln (f_s m) + 5 * f_v m * sqrt (f_T m) - (ln (f_s m) - 5 * f_v m * sqrt (f_T m))) / (2 * INR q))) with (ln (f_s m)) by (field; assumption). apply exp_ln, S0. }
    rewrite En in H. replace ((nth (mid1 m) w 0 + nth (mid1 m) w 0) / 2) with (nth (mid1 m) w 0) by field.
    apply Rle_trans with (exp (- f_r m * f_T m) * (exp (f_r m * (INR (f_nt m) * dt m)) * payoff m (f_s m))); [|apply Rmult_le_compat_l; [apply Rlt_le, exp_pos|exact H]].
    rewrite <- Rmult_assoc, <- exp_plus. replace (- f_r m * f_T m + f_r m * (INR (f_nt m) * dt m)) with 0 by (unfold dt; field; lra). rewrite exp_0. lra.
Qed.
Print Assumptions fd_american_intrinsic.

(** but an American flag with any other pair of dates is priced as a European
    option, and a put deep in the money is then worth less than exercising it *)
Theorem fd_american_refuted : forall s m a b, f_ex m = American a b -> (a, b) <> (date_min, date_max) ->
  price_of s m = price_of s (with_ex m (European b)) /\
  (fd_valid m -> stable s m -> f_tf m = Put -> exp (x_min m) <= f_k m * exp (- f_r m * f_T m) -> f_s m < f_k m * (1 - exp (- f_r m * f_T m)) ->
   exists p, price_of s m = Ret p /\ p < f_k m - f_s m).
Proof.
  intros s m a b E N. assert (F : early_exercise m = false).
  { unfold early_exercise. rewrite E. destruct (date_eqb a date_min) eqn:A; [|reflexivity]. destruct (date_eqb b date_max) eqn:B; [|reflexivity].
    apply date_eqb_eq in A, B. subst. congruence. }
  split.
  - assert (ST : forall t v, step_of s m t v = step_of s (with_ex m (European b)) t v).
    { intros t v. rewrite !step_of_eq. unfold exercising. replace (lin_of s (with_ex m (European b)) t v) with (lin_of s m t v) by (destruct s; reflexivity).
      destruct (lin_of s m t v); [|reflexivity|reflexivity]. cbn [bind]. unfold maybe_exercise. rewrite F. reflexivity. }
    rewrite !price_of_eq. unfold finish, time_loop. cbn [with_ex f_nt]. change (initial_condition (with_ex m (European b))) with (initial_condition m).
    assert (FL : forall l acc, fold_left (fun acc t => let! v := acc in step_of s m t v) l acc = fold_left (fun acc t => let! v := acc in step_of s (with_ex m (European b)) t v) l acc).
    { induction l as [|t l IH]; intros acc; [reflexivity|]. cbn [fold_left]. rewrite <- IH. f_equal. destruct acc; [apply ST|reflexivity|reflexivity]. }
    rewrite FL. reflexivity.
  - intros V S TF HX HS. destruct (fd_put_bounds s m V S TF HX) as (p & Ep & _ & C). exists p. split; [exact Ep|]. specialize (C F). lra.
Qed.
Print Assumptions fd_american_refuted.

(** boundary values are not floored at zero: with the implicit scheme every put
    struck below the grid has a negative price *)
Lemma sm_first n f : (1 <= n)%nat -> (forall j, (2 <= j <= n)%nat -> f j <= 0) -> sm n f <= f 1%nat.
Proof.
  induction n as [|n IH]; intros L H; [lia|]. cbn [sm]. destruct n as [|n]; [cbn; lra|]. specialize (IH ltac:(lia) ltac:(intros; apply H; lia)). specialize (H (S (S n)) ltac:(lia)). lra.
Qed.
Theorem fd_negative_price_refuted : forall m, fd_valid m -> f_tf m = Put -> early_exercise m = false ->
  Rabs (f_r m - / 2 * f_v m ^ 2) * (10 * f_v m * sqrt (f_T m) / INR (f_np m)) < f_v m ^ 2 ->
  f_k m <= exp (x_min m) -> exists p, implicit m = Ret p /\ p < 0.
Proof.
  intros m V TF EE HS HK. destruct (V_parts m V) as (_ & K & R & _ & T & NT & NP & _ & N2). pose proof (cx_pos m V) as X. pose proof (dt_pos m V) as D. pose proof (dx_pos m V) as DX.
  assert (Y : - cx m < cy m < cx m).
  { rewrite <- (dx_val m) in HS. set (g := f_r m - / 2 * f_v m ^ 2) in *.
    assert (K0 : 0 < dt m / (2 * dx m ^ 2)) by (apply Rdiv_lt_0_compat; [exact D|]; pose proof (pow_lt _ 2 DX); lra).
    assert (E1 : cx m = dt m / (2 * dx m ^ 2) * f_v m ^ 2) by (unfold cx; field; lra).
    assert (E2 : cy m = dt m / (2 * dx m ^ 2) * (g * dx m)) by (unfold cy; fold g; field; lra).
    assert (A : - (f_v m ^ 2) < g * dx m < f_v m ^ 2) by (unfold Rabs in HS; destruct (Rcase_abs g); nra).
    rewrite E1, E2. split; nra. }
  change (implicit m) with (price_of Implicit m). rewrite price_of_eq.
  destruct (loop_inv m (step_of Implicit m) (fun t v => length v = (f_np m - 1)%nat /\ (forall i, (i < f_np m - 1)%nat -> nth i v 0 <= 0) /\ ((1 <= t)%nat -> forall i, (i < f_np m - 1)%nat -> nth i v 0 < 0))) as (w & E & L & _ & H).
  - split; [apply initial_length|]. split; [|lia]. intros i Hi. rewrite initial_nth by exact Hi. unfold payoff. rewrite TF. apply Rmax_lub; [|lra].
    assert (exp (x_min m) < exp (node m (S i))) by (apply exp_increasing; unfold node; pose proof (lt_0_INR (S i) ltac:(lia)); nra). lra.
  - intros t u _ (L & U & _). rewrite step_of_eq. unfold exercising. cbn [lin_of]. unfold implicit_lin.
    destruct (add_boundary_spec m (- (- cx m - cy m)) (- (- cx m + cy m)) (S t) u V L) as (v1 & -> & L1 & H1). cbn [bind]. eexists. split; [reflexivity|].
    unfold maybe_exercise. rewrite EE. destruct (gen_mul_invert (- cx m + cy m) (1 + 2 * cx m) (- cx m - cy m) (f_np m - 1) v1 N2 ltac:(lia)) as [LW W]. split; [exact LW|].
    assert (BD : forall i, (i < f_np m - 1)%nat -> nth i v1 0 <= 0 /\ (i = O -> nth i v1 0 < 0)).
    { intros i Hi. rewrite H1. unfold bval. rewrite TF. specialize (U i Hi). destruct (Nat.eqb_spec i 0) as [->|]; [|split; [lra|contradiction]].
      assert (put_boundary m (INR (S t) * dt m) (x_min m) < 0).
      { unfold put_boundary. pose proof (lt_0_INR (S t) ltac:(lia)). assert (exp (- f_r m * (INR (S t) * dt m)) < exp 0) by (apply exp_increasing; assert (0 < INR (S t) * dt m) by (apply Rmult_lt_0_compat; assumption); nra). rewrite exp_0 in *. nra. }
      assert ((- (- cx m + cy m)) * put_boundary m (INR (S t) * dt m) (x_min m) < 0) by nra. split; intros; lra. }
    assert (NEG : forall i, (i < f_np m - 1)%nat -> nth i (gen_mul (invert_tri (- cx m + cy m) (1 + 2 * cx m) (- cx m - cy m) (f_np m - 1)) v1) 0 < 0).
    { intros i Hi. rewrite W by exact Hi. set (n := (f_np m - 1)%nat) in *. pose proof (Th_implicit_pos (cx m) (cy m) (Rlt_le _ _ X) n) as TP.
      eapply Rle_lt_trans; [apply sm_first; [lia|]|].
      - intros j Hj. assert (0 <= G (- cx m + cy m) (1 + 2 * cx m) (- cx m - cy m) (S n) (S i) j / Th (1 + 2 * cx m) ((- cx m - cy m) * (- cx m + cy m)) (S n)).
        { apply Rmult_le_pos; [apply G_nonneg; [lra|lra|apply Th_nonneg; lra]|apply Rlt_le, Rinv_0_lt_compat, TP]. }
        destruct j as [|j]; [lia|]. cbn [prev]. destruct (BD j ltac:(lia)) as [B _]. nra.
      - cbn [prev]. destruct (BD O ltac:(lia)) as [_ B]. specialize (B eq_refl).
        assert (0 < G (- cx m + cy m) (1 + 2 * cx m) (- cx m - cy m) (S n) (S i) 1 / Th (1 + 2 * cx m) ((- cx m - cy m) * (- cx m + cy m)) (S n)); [|nra].
        apply Rdiv_lt_0_compat; [|exact TP]. rewrite G_ge by lia. change (Th (1 + 2 * cx m) ((- cx m - cy m) * (- cx m + cy m)) 1) with 1.
        apply Rmult_lt_0_compat; [apply Rmult_lt_0_compat; [apply pow_lt; lra|lra]|]. replace (S n - S i)%nat with (S (n - S i)) by lia. apply Th_implicit_pos. lra. }
    split; [intros i Hi; apply Rlt_le, NEG, Hi|intros _; exact NEG].
  - rewrite E, finish_spec by assumption. eexists. split; [reflexivity|]. destruct (mids m V) as [M1 M2]. assert (N1 : (1 <= f_nt m)%nat) by apply V. pose proof (H N1 _ M1) as H1. pose proof (H N1 _ M2) as H2.
    pose proof (exp_pos (- f_r m * f_T m)). nra.
Qed.
Print Assumptions fd_negative_price_refuted.

(** the hypotheses are met: an at-the-money American put, one year, ten by ten *)
Definition sample (s k : R) (tf : type_flag) : fd := Fd s k (/ 20) (/ 5) 1 10 10 tf (American (Date 2024 1 1) (Date 2025 1 1)).
Lemma sample_ok s k tf : 0 < s -> 0 < k -> fd_valid (sample s k tf) /\ forall sc, stable sc (sample s k tf).
Proof.
  intros S K. split; [unfold fd_valid, sample; cbn [f_s f_k f_r f_v f_T f_nt f_np]; repeat split; try lra; lia|].
  intros sc. unfold stable, sample. cbn [f_s f_k f_r f_v f_T f_nt f_np]. replace (INR 10) with 10 by (cbn; lra). rewrite sqrt_1. split; [rewrite Rabs_pos_eq by lra; lra|]. destruct sc; lra || exact I.
Qed.
Example fd_sample_bounds : exp (x_min (sample 100 100 Put)) <= f_k (sample 100 100 Put) * exp (- f_r (sample 100 100 Put) * f_T (sample 100 100 Put)).
Proof.
  unfold x_min, sample. cbn [f_s f_k f_r f_v f_T]. rewrite sqrt_1. replace (ln 100 - 5 * / 5 * 1) with (ln 100 + - (1)) by lra. rewrite exp_plus, exp_ln by lra.
  apply Rmult_le_compat_l; [lra|]. apply exp_le. lra.
Qed.
Example fd_sample_deep_put : let m := sample 1 100 Put in
  f_ex m = American (Date 2024 1 1) (Date 2025 1 1) /\ exp (x_min m) <= f_k m * exp (- f_r m * f_T m) /\ f_s m < f_k m * (1 - exp (- f_r m * f_T m)).
Proof.
  cbv zeta. split; [reflexivity|]. unfold x_min, sample. cbn [f_s f_k f_r f_v f_T]. rewrite sqrt_1, ln_1. replace (- / 20 * 1) with (- (/ 20)) by lra.
  assert (A : exp (0 - 5 * / 5 * 1) <= 1) by (apply Rle_trans with (exp 0); [apply exp_le; lra|rewrite exp_0; lra]).
  assert (B : 1 + / 20 <= exp (/ 20)) by (apply Rlt_le, exp_ineq1; lra). rewrite exp_Ropp. pose proof (exp_pos (/ 20)) as P.
  assert (C : / exp (/ 20) <= / (1 + / 20)) by (apply Rinv_le_contravar; lra).
  assert (D : / 2 <= / exp (/ 20)). { apply Rinv_le_contravar; [exact P|]. pose proof (exp_neg_le_1 (/ 20) ltac:(lra)). pose proof exp_le_3. apply Rle_trans with (exp (ln 2)); [apply exp_le|rewrite exp_ln; lra].
    pose proof (exp_ineq1_le (- ln 2)) as Q. rewrite exp_Ropp, exp_ln in Q by lra. lra. }
  split; lra.
Qed.
Example fd_sample_negative : f_k (sample 100 1 Put) <= exp (x_min (sample 100 1 Put)) /\ early_exercise (sample 100 1 Put) = false.
Proof.
  split; [|reflexivity]. unfold x_min, sample. cbn [f_s f_k f_v f_T]. rewrite sqrt_1. apply Rle_trans with (exp 0); [rewrite exp_0; lra|]. apply exp_le.
  assert (Q : ln (exp 1) <= ln 100) by (apply Rlt_le, ln_increasing; [apply exp_pos|]; pose proof exp_le_3; lra). rewrite ln_exp in Q. lra.
Qed.
Example fd_sample_american : let m := with_ex (sample 100 100 Put) (American date_min date_max) in
  fd_valid m /\ (forall s, stable s m) /\ early_exercise m = true /\ Nat.even (f_np m) = true.
Proof. cbv zeta. destruct (sample_ok 100 100 Put ltac:(lra) ltac:(lra)) as [V S]. split; [exact V|]. split; [exact S|]. split; reflexivity. Qed.
