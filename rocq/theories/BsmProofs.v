(** Derivatives of the Black-Scholes-Merton formulas: lemmas for BsmProps.v. *)
From Coq Require Import Reals List Bool Lra Lia Psatz.
From Coquelicot Require Import Coquelicot.
From Verif Require Import Res InterpModel InterpProofs RList StatModel StatProps PayoffModel SpecialFns BsmModel.
Import ListNotations.
Open Scope R_scope.

Lemma isd_eq (f : R -> R) (x a b : R) : is_derive f x a -> a = b -> is_derive f x b.
Proof. intros H <-. exact H. Qed.
Lemma isd_ext (f g : R -> R) (x a : R) : (forall y, f y = g y) -> is_derive f x a -> is_derive g x a.
Proof. intros E H. apply (is_derive_ext f g x a E H). Qed.
Lemma isd_ext_pos (f g : R -> R) (x a : R) : 0 < x -> (forall y, 0 < y -> f y = g y) -> is_derive f x a -> is_derive g x a.
Proof.
  intros P E H. apply (is_derive_ext_loc f g); [|exact H].
  exists (mkposreal x P). intros y Hy. apply E. unfold ball in Hy; simpl in Hy; unfold AbsRing_ball, abs, minus, plus, opp in Hy; simpl in Hy.
  apply Rabs_def2 in Hy. lra.
Qed.

(** composites with the normal density and distribution *)
Lemma d_ncdf (D : R -> R) x d : is_derive D x d -> is_derive (fun y => ncdf (D y)) x (npdf (D x) * d).
Proof.
  intros H. eapply isd_eq; [apply (is_derive_comp ncdf D x _ _ (ncdf_derive _) H)|]. unfold scal; simpl; unfold mult; simpl. ring.
Qed.
Lemma d_npdf (D : R -> R) x d : is_derive D x d -> is_derive (fun y => npdf (D y)) x (- D x * npdf (D x) * d).
Proof.
  intros H. eapply isd_eq; [apply (is_derive_comp npdf D x _ _ (npdf_derive _) H)|]. unfold scal; simpl; unfold mult; simpl. ring.
Qed.
Lemma d_mul (f g : R -> R) x a b : is_derive f x a -> is_derive g x b -> is_derive (fun y => f y * g y) x (a * g x + f x * b).
Proof.
  intros F G. eapply isd_eq; [apply (is_derive_mult f g x a b F G); intros n m; apply Rmult_comm|]. unfold plus, mult; simpl. ring.
Qed.
Lemma d_add (f g : R -> R) x a b : is_derive f x a -> is_derive g x b -> is_derive (fun y => f y + g y) x (a + b).
Proof. intros F G. apply (is_derive_plus f g x a b F G). Qed.
Lemma d_sub (f g : R -> R) x a b : is_derive f x a -> is_derive g x b -> is_derive (fun y => f y - g y) x (a - b).
Proof. intros F G. apply (is_derive_minus f g x a b F G). Qed.
Lemma d_opp (f : R -> R) x a : is_derive f x a -> is_derive (fun y => - f y) x (- a).
Proof. intros F. apply (is_derive_opp f x a F). Qed.
Lemma d_const (c x : R) : is_derive (fun _ : R => c) x 0.
Proof. apply (is_derive_const (K:=R_AbsRing) (V:=R_NormedModule) c). Qed.
Lemma d_id (x : R) : is_derive (fun y : R => y) x 1.
Proof. apply (is_derive_id (K:=R_AbsRing)). Qed.

(** the generic price: the density terms only enter through d1' - d2' *)
Lemma gen_call (A B D1 D2 : R -> R) x a b e1 e2 :
  is_derive A x a -> is_derive B x b -> is_derive D1 x e1 -> is_derive D2 x e2 ->
  A x * npdf (D1 x) = B x * npdf (D2 x) ->
  is_derive (fun y => A y * ncdf (D1 y) - B y * ncdf (D2 y)) x
    (a * ncdf (D1 x) - b * ncdf (D2 x) + A x * npdf (D1 x) * (e1 - e2)).
Proof.
  intros HA HB H1 H2 E. eapply isd_eq; [apply d_sub; apply d_mul; eauto using d_ncdf|].
  replace (B x * (npdf (D2 x) * e2)) with (A x * npdf (D1 x) * e2) by (rewrite E; ring). ring.
Qed.
Lemma gen_put (A B D1 D2 : R -> R) x a b e1 e2 :
  is_derive A x a -> is_derive B x b -> is_derive D1 x e1 -> is_derive D2 x e2 ->
  A x * npdf (D1 x) = B x * npdf (D2 x) ->
  is_derive (fun y => - A y * ncdf (- D1 y) + B y * ncdf (- D2 y)) x
    (- a * ncdf (- D1 x) + b * ncdf (- D2 x) + A x * npdf (D1 x) * (e1 - e2)).
Proof.
  intros HA HB H1 H2 E. eapply isd_eq; [apply d_add; apply d_mul; [apply d_opp; exact HA|apply d_ncdf, d_opp; exact H1|exact HB|apply d_ncdf, d_opp; exact H2]|].
  cbv beta. rewrite !npdf_even. replace (B x * (npdf (D2 x) * - e2)) with (- (A x * npdf (D1 x) * e2)) by (rewrite E; ring). ring.
Qed.

Section D.
  Variables (s k t b v : R).
  Hypotheses (Hs : 0 < s) (Hk : 0 < k) (Ht : 0 < t) (Hv : 0 < v).

  Lemma sq_pos : 0 < sqrt t. Proof. apply sqrt_lt_R0, Ht. Qed.
  Lemma sq_sq : sqrt t * sqrt t = t. Proof. apply sqrt_sqrt. lra. Qed.
  Lemma vs_pos : 0 < v * sqrt t. Proof. apply Rmult_lt_0_compat; [exact Hv|apply sq_pos]. Qed.
  Lemma sk_pos : 0 < s / k. Proof. apply Rdiv_lt_0_compat; assumption. Qed.

  Lemma d1_ds : is_derive (fun x => d1 x k t b v) s (1 / (s * v * sqrt t)).
  Proof.
    pose proof sq_pos. pose proof sk_pos. unfold d1. auto_derive; [split; [exact sk_pos|split; [apply Rgt_not_eq, Rlt_gt, vs_pos|exact I]] || (repeat split; try (apply Rgt_not_eq, vs_pos); exact sk_pos)|]. field. repeat split; lra.
  Qed.
  Lemma d1_dk : is_derive (fun x => d1 s x t b v) k (- 1 / (k * v * sqrt t)).
  Proof.
    pose proof sq_pos. pose proof sk_pos. unfold d1. auto_derive; [repeat split; try lra; try exact sk_pos; try (apply Rgt_not_eq, vs_pos)|]. field. repeat split; lra.
  Qed.
  Lemma d1_db : is_derive (fun x => d1 s k t x v) b (sqrt t / v).
  Proof.
    pose proof sq_pos. unfold d1. auto_derive; [try (apply Rgt_not_eq, vs_pos); try exact I|].
    replace t with (sqrt t * sqrt t) at 1 by exact sq_sq. field. lra.
  Qed.
  Lemma d1_dv : is_derive (fun x => d1 s k t b x) v (- d2 s k t b v / v).
  Proof.
    pose proof sq_pos. pose proof vs_pos. unfold d2, d1. auto_derive; [repeat split; try lra|].
    set (w := sqrt t) in *. assert (E : t = w * w) by (symmetry; apply sq_sq). rewrite E. field. lra.
  Qed.
  Lemma d1_dt : is_derive (fun x => d1 s k x b v) t (b / (v * sqrt t) - d2 s k t b v / (2 * t)).
  Proof.
    pose proof sq_pos. pose proof vs_pos. unfold d2, d1. auto_derive; [repeat split; try lra|].
    set (w := sqrt t) in *. assert (E : t = w * w) by (symmetry; apply sq_sq). rewrite E. field. lra.
  Qed.
  Lemma vsqt_dv : is_derive (fun x => x * sqrt t) v (sqrt t).
  Proof. auto_derive; [exact I|ring]. Qed.
  Lemma vsqt_dt : is_derive (fun x => v * sqrt x) t (v / (2 * sqrt t)).
  Proof. pose proof sq_pos. auto_derive; [exact Ht|]. field. lra. Qed.

  Lemma d2_ds : is_derive (fun x => d2 x k t b v) s (1 / (s * v * sqrt t)).
  Proof. unfold d2. eapply isd_eq; [apply d_sub; [apply d1_ds|apply d_const]|ring]. Qed.
  Lemma d2_dk : is_derive (fun x => d2 s x t b v) k (- 1 / (k * v * sqrt t)).
  Proof. unfold d2. eapply isd_eq; [apply d_sub; [apply d1_dk|apply d_const]|ring]. Qed.
  Lemma d2_db : is_derive (fun x => d2 s k t x v) b (sqrt t / v).
  Proof. unfold d2. eapply isd_eq; [apply d_sub; [apply d1_db|apply d_const]|ring]. Qed.
  Lemma d2_dv : is_derive (fun x => d2 s k t b x) v (- d2 s k t b v / v - sqrt t).
  Proof. unfold d2 at 1. apply d_sub; [apply d1_dv|apply vsqt_dv]. Qed.
  Lemma d2_dt : is_derive (fun x => d2 s k x b v) t (b / (v * sqrt t) - d2 s k t b v / (2 * t) - v / (2 * sqrt t)).
  Proof. unfold d2 at 1. apply d_sub; [apply d1_dt|apply vsqt_dt]. Qed.

  (** s e^{bt} phi(d1) = k phi(d2) *)
  Lemma key : s * exp (b * t) * npdf (d1 s k t b v) = k * npdf (d2 s k t b v).
  Proof.
    unfold npdf. pose proof vs_pos as V. pose proof sq_pos as W.
    assert (E : - / 2 * d2 s k t b v ^ 2 = - / 2 * d1 s k t b v ^ 2 + (ln (s / k) + b * t)).
    { unfold d2. set (x := d1 s k t b v). assert (X : x * (v * sqrt t) = ln (s / k) + (b + / 2 * v ^ 2) * t) by (unfold x, d1; field; lra).
      clearbody x. replace (- / 2 * (x - v * sqrt t) ^ 2) with (- / 2 * x ^ 2 + x * (v * sqrt t) - / 2 * v ^ 2 * (sqrt t * sqrt t)) by field.
      rewrite X, sq_sq. field. }
    rewrite E, !exp_plus, exp_ln by exact sk_pos. field. pose proof sqrt_2PI_pos. split; lra.
  Qed.
  Lemma key_r r : s * exp ((b - r) * t) * npdf (d1 s k t b v) = k * exp (- r * t) * npdf (d2 s k t b v).
  Proof.
    replace (exp ((b - r) * t)) with (exp (b * t) * exp (- r * t)) by (rewrite <- exp_plus; f_equal; ring).
    transitivity (s * exp (b * t) * npdf (d1 s k t b v) * exp (- r * t)); [ring|]. rewrite key. ring.
  Qed.
End D.

(** ** phi(x) + x N(x) > 0 and N/phi increasing *)
Definition hz (x : R) : R := npdf x + x * ncdf x.
Lemma hz_derive x : is_derive hz x (ncdf x).
Proof.
  unfold hz. eapply isd_eq; [apply d_add; [apply (npdf_derive x)|apply d_mul; [apply d_id|apply (ncdf_derive x)]]|]. cbv beta. ring.
Qed.
Lemma hz_increasing x y : x < y -> hz x < hz y.
Proof.
  intros H. apply (incr_function hz m_infty p_infty ncdf); [intros; apply hz_derive|intros; apply ncdf_bound|exact I|exact H|exact I].
Qed.
Lemma ncdf_tail y : 0 < y -> ncdf (- y) <= 2 / PI * exp (- (y ^ 2 / 2)).
Proof.
  intros Y. unfold ncdf. replace (- - y / sqrt 2) with (y / sqrt 2) by (field; apply Rgt_not_eq, sqrt2_pos).
  assert (P : 0 < y / sqrt 2) by (apply Rdiv_lt_0_compat; [exact Y|apply sqrt2_pos]).
  pose proof (erf_near_one _ P) as B. unfold erfc.
  replace ((y / sqrt 2) ^ 2) with (y ^ 2 / 2) in B.
  - pose proof PI_RGT_0. replace (2 / PI * exp (- (y ^ 2 / 2))) with (/ 2 * (4 / PI * exp (- (y ^ 2 / 2)))) by (field; lra). lra.
  - replace ((y / sqrt 2) ^ 2) with (y ^ 2 / (sqrt 2 * sqrt 2)) by (field; apply Rgt_not_eq, sqrt2_pos). rewrite sqrt_sqrt by lra. reflexivity.
Qed.
Lemma exp_neg_le z : 0 <= z -> exp (- z) <= / (1 + z).
Proof.
  intros Z. rewrite exp_Ropp. apply Rinv_le_contravar; [lra|]. destruct Z as [Z| <-]; [left; apply exp_ineq1; lra|rewrite exp_0; lra].
Qed.
Lemma hz_pos x : 0 < hz x.
Proof.
  destruct (Rlt_or_le 0 (hz x)) as [|N]; [assumption|exfalso].
  set (c := hz (x - 1)). assert (C : c < 0) by (pose proof (hz_increasing (x - 1) x); unfold c; lra).
  (* far to the left *)
  set (y := Rmax (1 - x) 0 + 4 / - c + 1).
  assert (Q : 0 < 4 / - c) by (apply Rdiv_lt_0_compat; lra).
  assert (Y : 1 - x < y /\ 0 < y /\ 4 / - c < y) by (unfold y, Rmax; destruct (Rle_dec (1 - x) 0); lra).
  destruct Y as (Y1 & Y2 & Y3).
  assert (H1 : hz (- y) < c) by (apply hz_increasing; lra).
  unfold hz in H1. pose proof (npdf_pos (- y)) as NP.
  pose proof (ncdf_tail y Y2) as T. pose proof (exp_neg_le (y ^ 2 / 2) ltac:(nra)) as EX.
  pose proof PI_RGT_0 as P0. pose proof PI2_1 as P2.
  assert (PI2 : 2 / PI <= 1).
  { apply Rmult_le_reg_r with PI; [lra|]. unfold Rdiv. rewrite Rmult_assoc, Rinv_l by lra. lra. }
  assert (I0 : 0 < / (1 + y ^ 2 / 2)) by (apply Rinv_0_lt_compat; nra).
  assert (B : ncdf (- y) <= / (1 + y ^ 2 / 2)).
  { pose proof (exp_pos (- (y ^ 2 / 2))). assert (2 / PI * exp (- (y ^ 2 / 2)) <= 1 * exp (- (y ^ 2 / 2))) by (apply Rmult_le_compat_r; lra). lra. }
  assert (B2 : y * / (1 + y ^ 2 / 2) <= 2 / y).
  { apply Rmult_le_reg_r with ((1 + y ^ 2 / 2) * y); [nra|].
    replace (y * / (1 + y ^ 2 / 2) * ((1 + y ^ 2 / 2) * y)) with (y ^ 2) by (field; nra).
    replace (2 / y * ((1 + y ^ 2 / 2) * y)) with (2 + y ^ 2) by (field; lra). lra. }
  assert (B3 : 2 / y < - c).
  { apply Rmult_lt_reg_r with y; [lra|]. replace (2 / y * y) with 2 by (field; lra).
    apply Rmult_lt_compat_r with (r := - c) in Y3; [|lra]. replace (4 / - c * - c) with 4 in Y3 by (field; lra). lra. }
  assert (y * ncdf (- y) <= y * / (1 + y ^ 2 / 2)) by (apply Rmult_le_compat_l; lra). lra.
Qed.
Lemma mills_derive x : is_derive (fun x => ncdf x / npdf x) x (hz x / npdf x).
Proof.
  pose proof (npdf_pos x). eapply isd_eq; [apply (is_derive_div ncdf npdf x _ _ (ncdf_derive x) (npdf_derive x)); lra|].
  unfold hz. field. lra.
Qed.
Lemma mills_increasing x y : x < y -> ncdf x * npdf y < ncdf y * npdf x.
Proof.
  intros H. assert (E : ncdf x / npdf x < ncdf y / npdf y).
  { apply (incr_function (fun x => ncdf x / npdf x) m_infty p_infty (fun x => hz x / npdf x)); [intros; apply mills_derive|intros|exact I|exact H|exact I].
    apply Rdiv_lt_0_compat; [apply hz_pos|apply npdf_pos]. }
  pose proof (npdf_pos x). pose proof (npdf_pos y).
  apply Rmult_lt_compat_r with (r := npdf x * npdf y) in E; [|apply Rmult_lt_0_compat; lra].
  replace (ncdf x / npdf x * (npdf x * npdf y)) with (ncdf x * npdf y) in E by (field; lra).
  replace (ncdf y / npdf y * (npdf x * npdf y)) with (ncdf y * npdf x) in E by (field; lra). exact E.
Qed.
