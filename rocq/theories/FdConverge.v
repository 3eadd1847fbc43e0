(** C91: the finite-difference prices converge to the closed form, up to an explicit error of the boundary conditions. *)
From Coq Require Import ZArith Reals List Bool Lra Lia Psatz.
From Coquelicot Require Import Coquelicot.
From Verif Require Import Res DateModel InterpModel RList PayoffModel SpecialFns BsmModel BsmProofs SimMoments GaussExp RiskNeutral FdModel FdProofs FdProps FdLimit.
Import ListNotations.
Open Scope R_scope.

(** ** Bounded functions on a rectangle *)
Section Bounded.
Context (tl th xl xh : R) (TL : 0 < tl).
Definition bnd (f : R -> R -> R) : Prop := exists M, forall t x, tl <= t <= th -> xl <= x <= xh -> Rabs (f t x) <= M.
Lemma bnd_const c : bnd (fun _ _ => c).
Proof. exists (Rabs c). intros. lra. Qed.
Lemma bnd_t : bnd (fun t _ => t).
Proof. exists (Rabs tl + Rabs th). intros t x Ht Hx. unfold Rabs. destruct (Rcase_abs t), (Rcase_abs tl), (Rcase_abs th); lra. Qed.
Lemma bnd_x : bnd (fun _ x => x).
Proof. exists (Rabs xl + Rabs xh). intros t x Ht Hx. unfold Rabs. destruct (Rcase_abs x), (Rcase_abs xl), (Rcase_abs xh); lra. Qed.
Lemma bnd_add f g : bnd f -> bnd g -> bnd (fun t x => f t x + g t x).
Proof. intros (M & H) (N & K). exists (M + N). intros t x Ht Hx. apply Rle_trans with (1 := Rabs_triang _ _). specialize (H t x Ht Hx). specialize (K t x Ht Hx). lra. Qed.
Lemma bnd_mul f g : bnd f -> bnd g -> bnd (fun t x => f t x * g t x).
Proof. intros (M & H) (N & K). exists (M * N). intros t x Ht Hx. rewrite Rabs_mult. apply Rmult_le_compat; try apply Rabs_pos; auto. Qed.
Lemma bnd_opp f : bnd f -> bnd (fun t x => - f t x).
Proof. intros (M & H). exists M. intros t x Ht Hx. rewrite Rabs_Ropp. auto. Qed.
Lemma bnd_sub f g : bnd f -> bnd g -> bnd (fun t x => f t x - g t x).
Proof. intros F G. destruct (bnd_add _ _ F (bnd_opp _ G)) as (M & H). exists M. exact H. Qed.
Lemma bnd_exp f : bnd f -> bnd (fun t x => exp (f t x)).
Proof. intros (M & H). exists (exp M). intros t x Ht Hx. rewrite Rabs_right by (left; apply exp_pos). specialize (H t x Ht Hx). apply Rabs_le_between in H. apply exp_le. lra. Qed.
Lemma bnd_sqrt : bnd (fun t _ => sqrt t).
Proof. exists (sqrt th). intros t x Ht Hx. rewrite Rabs_right by (apply Rle_ge, sqrt_pos). apply sqrt_le_1_alt. lra. Qed.
Lemma bnd_isqrt : bnd (fun t _ => / sqrt t).
Proof.
  exists (/ sqrt tl). intros t x Ht Hx. pose proof (sqrt_lt_R0 tl TL) as A. assert (0 < sqrt t) by (apply sqrt_lt_R0; lra). rewrite Rabs_right by (left; apply Rinv_0_lt_compat; assumption). apply Rinv_le_contravar; [exact A|apply sqrt_le_1_alt; lra].
Qed.
Lemma bnd_it : bnd (fun t _ => / t).
Proof. exists (/ tl). intros t x Ht Hx. rewrite Rabs_right by (left; apply Rinv_0_lt_compat; lra). apply Rinv_le_contravar; lra. Qed.
Lemma bnd_npdf f : bnd (fun t x => npdf (f t x)).
Proof.
  exists (/ sqrt (2 * PI)). intros t x _ _. rewrite Rabs_right by (left; apply npdf_pos). unfold npdf. rewrite <- (Rmult_1_r (/ sqrt (2 * PI))) at 2. apply Rmult_le_compat_l; [left; apply Rinv_0_lt_compat, sqrt_2PI_pos|].
  rewrite <- exp_0. apply exp_le. pose proof (pow2_ge_0 (f t x)). lra.
Qed.
Lemma bnd_ncdf f : bnd (fun t x => ncdf (f t x)).
Proof. exists 1. intros t x _ _. destruct (ncdf_bound (f t x)). rewrite Rabs_right; lra. Qed.
Lemma bnd_ext f g : (forall t x, tl <= t <= th -> xl <= x <= xh -> f t x = g t x) -> bnd f -> bnd g.
Proof. intros E (M & H). exists M. intros t x Ht Hx. rewrite <- E by assumption. auto. Qed.
End Bounded.

(** ** Exponentials solve the equation *)
Lemma exp_regular a b mu c tl th xl xh : 0 < tl -> a * mu ^ 2 + b * mu <= c -> exists M, regular a b tl th xl xh M (fun t x => exp (mu * x + c * t)).
Proof.
  intros T C. set (E := fun t x => exp (mu * x + c * t)).
  assert (B : bnd tl th xl xh E) by (apply bnd_exp, bnd_add; apply bnd_mul; try apply bnd_const; [apply bnd_x|apply bnd_t; exact T]).
  assert (S : forall r, exists M, forall t x, tl <= t <= th -> xl <= x <= xh -> Rabs (r * E t x) <= M) by (intro r; apply (bnd_mul tl th xl xh (fun _ _ => r) E (bnd_const _ _ _ _ r) B)).
  destruct (S mu) as (M1 & H1). destruct (S (mu ^ 3)) as (M3 & H3). destruct (S (mu ^ 4)) as (M4 & H4). destruct (S ((a * mu ^ 2 + b * mu) * c)) as (M5 & H5).
  exists (Rmax (Rmax M1 M3) (Rmax M4 M5)). exists (fun t x => mu * E t x), (fun t x => mu ^ 2 * E t x), (fun t x => mu ^ 3 * E t x), (fun t x => mu ^ 4 * E t x), (fun t x => c * E t x), (fun t x => (a * mu ^ 2 + b * mu) * c * E t x).
  assert (DX : forall t x, is_derive (E t) x (mu * E t x)) by (intros t x; unfold E; auto_derive; [exact I|ring]).
  assert (DT : forall t x, is_derive (fun s => E s x) t (c * E t x)) by (intros t x; unfold E; auto_derive; [exact I|ring]).
  assert (SC : forall (f : R -> R) y d r, is_derive f y d -> is_derive (fun u => r * f u) y (r * d)) by (intros f y d r Hd; apply (is_derive_scal f y r d Hd)).
  intros t x Ht Hx. specialize (H1 t x Ht Hx). specialize (H3 t x Ht Hx). specialize (H4 t x Ht Hx). specialize (H5 t x Ht Hx).
  pose proof (Rmax_l (Rmax M1 M3) (Rmax M4 M5)). pose proof (Rmax_r (Rmax M1 M3) (Rmax M4 M5)). pose proof (Rmax_l M1 M3). pose proof (Rmax_r M1 M3). pose proof (Rmax_l M4 M5). pose proof (Rmax_r M4 M5).
  split; [split; [apply DX|split; [|split]]|].
  - apply (isd_eq _ _ (mu * (mu * E t x))); [apply SC, DX|ring].
  - apply (isd_eq _ _ (mu ^ 2 * (mu * E t x))); [apply SC, DX|ring].
  - apply (isd_eq _ _ (mu ^ 3 * (mu * E t x))); [apply SC, DX|ring].
  - split; [lra|]. split; [apply DT|]. split; [|split; [|lra]].
    + replace (a * (mu ^ 2 * E t x) + b * (mu * E t x)) with ((a * mu ^ 2 + b * mu) * E t x) by ring. apply Rmult_le_compat_r; [left; apply exp_pos|exact C].
    + apply (isd_ext (fun s => (a * mu ^ 2 + b * mu) * E s x)); [intro y; ring|]. apply (isd_eq _ _ ((a * mu ^ 2 + b * mu) * (c * E t x))); [apply SC, DT|ring].
Qed.
Lemma exp_exact a b mu tl th xl xh : 0 < tl -> exists M, exact a b tl th xl xh M (fun t x => exp (mu * x + (a * mu ^ 2 + b * mu) * t)).
Proof.
  intros T. set (c := a * mu ^ 2 + b * mu). set (E := fun t x => exp (mu * x + c * t)).
  assert (B : bnd tl th xl xh E) by (apply bnd_exp, bnd_add; apply bnd_mul; try apply bnd_const; [apply bnd_x|apply bnd_t; exact T]).
  assert (S : forall r, exists M, forall t x, tl <= t <= th -> xl <= x <= xh -> Rabs (r * E t x) <= M) by (intro r; apply (bnd_mul tl th xl xh (fun _ _ => r) E (bnd_const _ _ _ _ r) B)).
  destruct (S mu) as (M1 & H1). destruct (S (mu ^ 3)) as (M3 & H3). destruct (S (mu ^ 4)) as (M4 & H4). destruct (S (c * c)) as (M5 & H5).
  exists (Rmax (Rmax M1 M3) (Rmax M4 M5)). exists (fun t x => mu * E t x), (fun t x => mu ^ 2 * E t x), (fun t x => mu ^ 3 * E t x), (fun t x => mu ^ 4 * E t x), (fun t x => c * c * E t x).
  assert (DX : forall t x, is_derive (E t) x (mu * E t x)) by (intros t x; unfold E; auto_derive; [exact I|ring]).
  assert (DT : forall t x, is_derive (fun s => E s x) t (c * E t x)) by (intros t x; unfold E; auto_derive; [exact I|ring]).
  assert (SC : forall (f : R -> R) y d r, is_derive f y d -> is_derive (fun u => r * f u) y (r * d)) by (intros f y d r Hd; apply (is_derive_scal f y r d Hd)).
  intros t x Ht Hx. specialize (H1 t x Ht Hx). specialize (H3 t x Ht Hx). specialize (H4 t x Ht Hx). specialize (H5 t x Ht Hx).
  pose proof (Rmax_l (Rmax M1 M3) (Rmax M4 M5)). pose proof (Rmax_r (Rmax M1 M3) (Rmax M4 M5)). pose proof (Rmax_l M1 M3). pose proof (Rmax_r M1 M3). pose proof (Rmax_l M4 M5). pose proof (Rmax_r M4 M5).
  split; [split; [apply DX|split; [|split]]|].
  - apply (isd_eq _ _ (mu * (mu * E t x))); [apply SC, DX|ring].
  - apply (isd_eq _ _ (mu ^ 2 * (mu * E t x))); [apply SC, DX|ring].
  - apply (isd_eq _ _ (mu ^ 3 * (mu * E t x))); [apply SC, DX|ring].
  - split; [lra|]. split; [|split; [|lra]].
    + replace (a * (mu ^ 2 * E t x) + b * (mu * E t x)) with (c * E t x) by (unfold c; ring). apply DT.
    + apply (isd_ext (fun s => c * E s x)); [intro y; unfold c; ring|]. apply (isd_eq _ _ (c * (c * E t x))); [apply SC, DT|ring].
Qed.
Lemma d_shift_r (f : R -> R) e u d : is_derive f (u + e) d -> is_derive (fun u => f (u + e)) u d.
Proof. intro H. apply (isd_ext (fun u => f (e + u))); [intro y; f_equal; ring|]. apply d_shift. rewrite Rplus_comm. exact H. Qed.
Lemma exact_shift a b tl th xl xh M F e : exact a b (tl + e) (th + e) xl xh M F -> exact a b tl th xl xh M (fun t x => F (t + e) x).
Proof.
  intros (F1 & F2 & F3 & F4 & Q & H). exists (fun t x => F1 (t + e) x), (fun t x => F2 (t + e) x), (fun t x => F3 (t + e) x), (fun t x => F4 (t + e) x), (fun t x => Q (t + e) x).
  intros t x Ht Hx. destruct (H (t + e) x ltac:(lra) Hx) as (D & B & E & K & B'). split; [exact D|]. split; [exact B|]. split; [apply (d_shift_r (fun s => F s x)), E|]. split; [|exact B']. apply (d_shift_r (fun s => a * F2 s x + b * F1 s x)), K.
Qed.
Lemma regular_shift a b tl th xl xh M F e : regular a b (tl + e) (th + e) xl xh M F -> regular a b tl th xl xh M (fun t x => F (t + e) x).
Proof.
  intros (F1 & F2 & F3 & F4 & P & Q & H). exists (fun t x => F1 (t + e) x), (fun t x => F2 (t + e) x), (fun t x => F3 (t + e) x), (fun t x => F4 (t + e) x), (fun t x => P (t + e) x), (fun t x => Q (t + e) x).
  intros t x Ht Hx. destruct (H (t + e) x ltac:(lra) Hx) as (D & B & E & L & K & B'). split; [exact D|]. split; [exact B|]. split; [apply (d_shift_r (fun s => F s x)), E|]. split; [exact L|]. split; [|exact B']. apply (d_shift_r (fun s => a * F2 s x + b * F1 s x)), K.
Qed.

(** ** The undiscounted closed-form price in log-price *)
Definition value (tf : type_flag) (k r v t x : R) : R := (match tf with Call => call_price | Put => put_price end) (exp x) k t 0 r v.
Section Value.
Context (k r v : R) (K : 0 < k) (V : 0 < v).
Let D1 t x := d1 (exp x) k t r v.
Let D2 t x := d2 (exp x) k t r v.
Let e t := / (v * sqrt t).
Let W1 t x := - (exp x * exp (r * t)) * ncdf (- D1 t x).
Let F t x := k * npdf (D2 t x) * e t.
Let F1 t x := - D2 t x * (k * npdf (D2 t x)) * (e t * e t).
Let F2 t x := (D2 t x * D2 t x - 1) * (k * npdf (D2 t x)) * (e t * e t * e t).
Let D1t t x := r / (v * sqrt t) - D2 t x / (2 * t).
Lemma put_form t x : value Put k r v t x = - (exp x * exp (r * t)) * ncdf (- D1 t x) + k * ncdf (- D2 t x).
Proof. unfold value, put_price, D1, D2. replace (exp (- 0 * t)) with 1 by (replace (- 0 * t) with 0 by ring; symmetry; apply exp_0). rewrite Rminus_0_r. ring. Qed.
Lemma kv t x : 0 < t -> exp x * exp (r * t) * npdf (D1 t x) = k * npdf (D2 t x).
Proof. intro T. apply key; [apply exp_pos|exact K|exact T|exact V]. Qed.
Lemma D1x t x : 0 < t -> is_derive (D1 t) x (e t).
Proof.
  intro T. pose proof (sqrt_lt_R0 t T) as Q. apply (isd_eq _ _ (exp x * (1 / (exp x * v * sqrt t)))); [|unfold e; field; pose proof (exp_pos x); repeat split; lra].
  apply (is_derive_comp (fun s => d1 s k t r v) exp x (1 / (exp x * v * sqrt t)) (exp x)); [apply d1_ds; try assumption; apply exp_pos|apply is_derive_exp].
Qed.
Lemma D2x t x : 0 < t -> is_derive (D2 t) x (e t).
Proof. intro T. apply (isd_eq _ _ (e t - 0)); [|ring]. unfold D2, d2. apply d_sub; [apply D1x, T|apply d_const]. Qed.
Lemma D1tt t x : 0 < t -> is_derive (fun s => D1 s x) t (D1t t x).
Proof. intro T. apply d1_dt; [exact T|exact V]. Qed.
Lemma D2tt t x : 0 < t -> is_derive (fun s => D2 s x) t (D1t t x - v / (2 * sqrt t)).
Proof. intro T. apply d2_dt; [exact T|exact V]. Qed.
Lemma et t : 0 < t -> is_derive e t (- (e t / (2 * t))).
Proof.
  intro T. pose proof (sqrt_lt_R0 t T) as Q. unfold e. auto_derive; [split; [exact T|split; [|exact I]]; apply Rgt_not_eq, Rmult_lt_0_compat; lra|]. replace (2 * t) with (2 * (sqrt t * sqrt t)) by (rewrite sqrt_sqrt; lra). field. lra.
Qed.
Lemma put_exact tl th xl xh : 0 < tl -> exists M, exact (/ 2 * v ^ 2) (r - / 2 * v ^ 2) tl th xl xh M (value Put k r v).
Proof.
  intro TL. set (a := / 2 * v ^ 2). set (b := r - / 2 * v ^ 2).
  set (W2 := fun t x => W1 t x + F t x). set (W3 := fun t x => W1 t x + F t x + F1 t x). set (W4 := fun t x => W1 t x + F t x + F1 t x + F2 t x).
  set (W1t := fun t x => r * W1 t x + k * npdf (D2 t x) * D1t t x).
  set (Ft := fun t x => - D2 t x * (k * npdf (D2 t x)) * (D1t t x - v * (/ 2 * / sqrt t)) * e t + k * npdf (D2 t x) * - (e t * (/ 2 * / t))).
  set (Q := fun t x => a * (W1t t x + Ft t x) + b * W1t t x).
  (* bounds *)
  assert (Be : bnd tl th xl xh (fun t _ => e t)).
  { apply (bnd_ext tl th xl xh (fun t x => / v * / sqrt t)); [|apply bnd_mul; [apply bnd_const|apply bnd_isqrt, TL]]. intros t x Ht _. unfold e. pose proof (sqrt_lt_R0 t ltac:(lra)). field. lra. }
  assert (BD : bnd tl th xl xh D2).
  { apply (bnd_ext tl th xl xh (fun t x => (x - ln k + (r + / 2 * v ^ 2) * t) * e t - v * sqrt t)).
    - intros t x Ht _. unfold D2, d2, d1, e. pose proof (sqrt_lt_R0 t ltac:(lra)). assert (L : ln (exp x / k) = x - ln k) by (unfold Rdiv; rewrite ln_mult, ln_exp, ln_Rinv; [ring|exact K|apply exp_pos|apply Rinv_0_lt_compat, K]). rewrite L. field. lra.
    - apply bnd_sub; [apply bnd_mul; [|exact Be]|apply bnd_mul; [apply bnd_const|apply bnd_sqrt]]. apply bnd_add; [apply bnd_sub; [apply bnd_x|apply bnd_const]|apply bnd_mul; [apply bnd_const|apply bnd_t; exact TL]]. }
  assert (BA : bnd tl th xl xh (fun t x => exp x * exp (r * t))) by (apply bnd_mul; apply bnd_exp; [apply bnd_x|apply bnd_mul; [apply bnd_const|apply bnd_t; exact TL]]).
  assert (BW1 : bnd tl th xl xh W1) by (apply bnd_mul; [apply bnd_opp, BA|apply bnd_ncdf]).
  assert (BK : bnd tl th xl xh (fun t x => k * npdf (D2 t x))) by (apply bnd_mul; [apply bnd_const|apply bnd_npdf]).
  assert (BF : bnd tl th xl xh F) by (apply bnd_mul; [exact BK|exact Be]).
  assert (BF1 : bnd tl th xl xh F1) by (apply bnd_mul; [apply bnd_mul; [apply bnd_opp, BD|exact BK]|apply bnd_mul; exact Be]).
  assert (BF2 : bnd tl th xl xh F2) by (apply bnd_mul; [apply bnd_mul; [apply bnd_sub; [apply bnd_mul; exact BD|apply bnd_const]|exact BK]|apply bnd_mul; [apply bnd_mul; exact Be|exact Be]]).
  assert (BD1t : bnd tl th xl xh D1t).
  { apply (bnd_ext tl th xl xh (fun t x => r * e t - D2 t x * (/ 2 * / t))); [intros t x Ht _; unfold D1t, e; pose proof (sqrt_lt_R0 t ltac:(lra)); field; lra|].
    apply bnd_sub; apply bnd_mul; [apply bnd_const|exact Be|exact BD|apply bnd_mul; [apply bnd_const|apply bnd_it, TL]]. }
  assert (BW1t : bnd tl th xl xh W1t) by (apply bnd_add; apply bnd_mul; [apply bnd_const|exact BW1|exact BK|exact BD1t]).
  assert (BFt : bnd tl th xl xh Ft).
  { apply bnd_add; apply bnd_mul; [apply bnd_mul; [apply bnd_mul; [apply bnd_opp, BD|exact BK]|]|exact Be|exact BK|].
    - apply bnd_sub; [exact BD1t|]. apply bnd_mul; [apply bnd_const|]. apply bnd_mul; [apply bnd_const|apply bnd_isqrt, TL].
    - apply bnd_opp, bnd_mul; [exact Be|]. apply bnd_mul; [apply bnd_const|apply bnd_it, TL]. }
  assert (BW3 : bnd tl th xl xh W3) by (apply bnd_add; [apply bnd_add; assumption|assumption]). assert (BW4 : bnd tl th xl xh W4) by (apply bnd_add; [exact BW3|assumption]).
  assert (BQ : bnd tl th xl xh Q) by (apply bnd_add; apply bnd_mul; [apply bnd_const|apply bnd_add; assumption|apply bnd_const|assumption]).
  destruct BW1 as (M1 & H1). destruct BW3 as (M3 & H3). destruct BW4 as (M4 & H4). destruct BQ as (M5 & H5).
  exists (Rmax (Rmax M1 M3) (Rmax M4 M5)), W1, W2, W3, W4, Q. intros t x Ht Hx. assert (T : 0 < t) by lra. pose proof (sqrt_lt_R0 t T) as SQ.
  assert (EE : e t <> 0) by (unfold e; apply Rinv_neq_0_compat, Rgt_not_eq, Rmult_lt_0_compat; lra).
  assert (dW1x : is_derive (W1 t) x (W2 t x)).
  { unfold W1. apply (isd_eq _ _ (- (exp x * exp (r * t)) * ncdf (- D1 t x) + - (exp x * exp (r * t)) * (npdf (- D1 t x) * - e t))).
    - apply (d_mul (fun y => - (exp y * exp (r * t))) (fun y => ncdf (- D1 t y))); [apply (d_opp (fun y => exp y * exp (r * t))); apply (isd_eq _ _ (exp x * exp (r * t) + exp x * 0)); [apply (d_mul exp (fun _ => exp (r * t))); [apply is_derive_exp|apply d_const]|ring]|]. apply (d_ncdf (fun y => - D1 t y)), (d_opp (D1 t)), D1x, T.
    - unfold W2, W1, F. rewrite npdf_even, <- (kv t x T). ring. }
  assert (dFx : is_derive (F t) x (F1 t x)).
  { unfold F. apply (isd_eq _ _ (k * (- D2 t x * npdf (D2 t x) * e t) * e t)); [|unfold F1; ring]. apply (isd_eq _ _ ((0 * npdf (D2 t x) + k * (- D2 t x * npdf (D2 t x) * e t)) * e t + k * npdf (D2 t x) * 0)); [|ring].
    apply (d_mul (fun y => k * npdf (D2 t y)) (fun _ => e t)); [|apply d_const]. apply (d_mul (fun _ => k) (fun y => npdf (D2 t y))); [apply d_const|]. apply (d_npdf (D2 t)), D2x, T. }
  assert (dF1x : is_derive (F1 t) x (F2 t x)).
  { unfold F1. apply (isd_eq _ _ ((- e t * (k * npdf (D2 t x)) + - D2 t x * (0 * npdf (D2 t x) + k * (- D2 t x * npdf (D2 t x) * e t))) * (e t * e t) + - D2 t x * (k * npdf (D2 t x)) * 0)); [|unfold F2; ring].
    apply (d_mul (fun y => - D2 t y * (k * npdf (D2 t y))) (fun _ => e t * e t)); [|apply d_const]. apply (d_mul (fun y => - D2 t y) (fun y => k * npdf (D2 t y))); [apply (d_opp (D2 t)), D2x, T|]. apply (d_mul (fun _ => k) (fun y => npdf (D2 t y))); [apply d_const|]. apply (d_npdf (D2 t)), D2x, T. }
  assert (dW1t : is_derive (fun s => W1 s x) t (W1t t x)).
  { unfold W1. apply (isd_eq _ _ (- (0 * exp (r * t) + exp x * (r * exp (r * t))) * ncdf (- D1 t x) + - (exp x * exp (r * t)) * (npdf (- D1 t x) * - D1t t x))).
    - apply (d_mul (fun s => - (exp x * exp (r * s))) (fun s => ncdf (- D1 s x))); [apply (d_opp (fun s => exp x * exp (r * s))); apply (d_mul (fun _ => exp x) (fun s => exp (r * s))); [apply d_const|]; auto_derive; [exact I|ring]|]. apply (d_ncdf (fun s => - D1 s x)), (d_opp (fun s => D1 s x)), D1tt, T.
    - unfold W1t, W1. rewrite npdf_even, <- (kv t x T). ring. }
  assert (dFt : is_derive (fun s => F s x) t (Ft t x)).
  { unfold F. apply (isd_eq _ _ ((0 * npdf (D2 t x) + k * (- D2 t x * npdf (D2 t x) * (D1t t x - v / (2 * sqrt t)))) * e t + k * npdf (D2 t x) * - (e t / (2 * t)))); [|unfold Ft; field; lra].
    apply (d_mul (fun s => k * npdf (D2 s x)) e); [|apply et, T]. apply (d_mul (fun _ => k) (fun s => npdf (D2 s x))); [apply d_const|]. apply (d_npdf (fun s => D2 s x)), D2tt, T. }
  pose proof (Rmax_l (Rmax M1 M3) (Rmax M4 M5)). pose proof (Rmax_r (Rmax M1 M3) (Rmax M4 M5)). pose proof (Rmax_l M1 M3). pose proof (Rmax_r M1 M3). pose proof (Rmax_l M4 M5). pose proof (Rmax_r M4 M5).
  split; [split; [|split; [exact dW1x|split; [|]]]|].
  - apply (isd_ext (fun y => - (exp y * exp (r * t)) * ncdf (- D1 t y) + k * ncdf (- D2 t y))); [intro y; symmetry; apply put_form|].
    apply (isd_eq _ _ (- (exp x * exp (r * t)) * ncdf (- D1 t x) + 0 * ncdf (- D2 t x) + exp x * exp (r * t) * npdf (D1 t x) * (e t - e t))); [|unfold W1; ring].
    apply (gen_put (fun y => exp y * exp (r * t)) (fun _ => k) (D1 t) (D2 t)); [apply (isd_eq _ _ (exp x * exp (r * t) + exp x * 0)); [apply (d_mul exp (fun _ => exp (r * t))); [apply is_derive_exp|apply d_const]|ring]|apply d_const|apply D1x, T|apply D2x, T|apply kv, T].
  - apply (isd_eq _ _ (W2 t x + F1 t x)); [unfold W2; apply d_add; assumption|reflexivity].
  - apply (isd_eq _ _ (W2 t x + F1 t x + F2 t x)); [unfold W3; apply d_add; [apply d_add; assumption|assumption]|unfold W2, W4; ring].
  - split; [specialize (H1 t x Ht Hx); specialize (H3 t x Ht Hx); specialize (H4 t x Ht Hx); lra|]. split; [|split; [|specialize (H5 t x Ht Hx); lra]].
    + apply (isd_ext (fun s => - (exp x * exp (r * s)) * ncdf (- D1 s x) + k * ncdf (- D2 s x))); [intro s; symmetry; apply put_form|].
      apply (isd_eq _ _ (- (0 * exp (r * t) + exp x * (r * exp (r * t))) * ncdf (- D1 t x) + 0 * ncdf (- D2 t x) + exp x * exp (r * t) * npdf (D1 t x) * (D1t t x - (D1t t x - v / (2 * sqrt t))))).
      * apply (gen_put (fun s => exp x * exp (r * s)) (fun _ => k) (fun s => D1 s x) (fun s => D2 s x)); [apply (d_mul (fun _ => exp x) (fun s => exp (r * s))); [apply d_const|]; auto_derive; [exact I|ring]|apply d_const|apply D1tt, T|apply D2tt, T|apply kv, T].
      * rewrite (kv t x T). unfold W2, W1, F, a, b, e. field. lra.
    + apply (isd_eq _ _ (a * (W1t t x + Ft t x) + b * W1t t x)); [|reflexivity]. unfold W2. apply d_add; [apply (is_derive_scal (fun s => W1 s x + F s x) t a); apply d_add; assumption|apply (is_derive_scal (fun s => W1 s x) t b); assumption].
Qed.
Lemma value_exact tf tl th xl xh : 0 < tl -> exists M, exact (/ 2 * v ^ 2) (r - / 2 * v ^ 2) tl th xl xh M (value tf k r v).
Proof.
  intro TL. destruct (put_exact tl th xl xh TL) as (M & H). destruct tf; [|exists M; exact H].
  destruct (exp_exact (/ 2 * v ^ 2) (r - / 2 * v ^ 2) 1 tl th xl xh TL) as (M1 & H1). destruct (exp_exact (/ 2 * v ^ 2) (r - / 2 * v ^ 2) 0 tl th xl xh TL) as (M0 & H0).
  eexists. assert (E : forall t x, value Call k r v t x = value Put k r v t x + (exp (1 * x + (/ 2 * v ^ 2 * 1 ^ 2 + (r - / 2 * v ^ 2) * 1) * t) + - k * exp (0 * x + (/ 2 * v ^ 2 * 0 ^ 2 + (r - / 2 * v ^ 2) * 0) * t))).
  { intros t x. unfold value, call_price, put_price. replace (exp (- 0 * t)) with 1 by (replace (- 0 * t) with 0 by ring; symmetry; apply exp_0). rewrite Rminus_0_r, !ncdf_sym.
    replace (0 * x + (/ 2 * v ^ 2 * 0 ^ 2 + (r - / 2 * v ^ 2) * 0) * t) with 0 by ring. rewrite exp_0. replace (1 * x + (/ 2 * v ^ 2 * 1 ^ 2 + (r - / 2 * v ^ 2) * 1) * t) with (x + r * t) by ring. rewrite exp_plus. ring. }
  pose proof (exact_add _ _ _ _ _ _ _ _ _ _ H (exact_add _ _ _ _ _ _ _ _ _ _ H1 (exact_scale (- k) _ _ _ _ _ _ _ _ H0))) as G.
  destruct G as (G1 & G2 & G3 & G4 & Q & G). exists G1, G2, G3, G4, Q. intros t x Ht Hx. destruct (G t x Ht Hx) as ((A1 & A2) & A3 & A4 & A5).
  split; [split; [|exact A2]|split; [exact A3|split; [|exact A5]]].
  - apply (isd_ext _ _ _ _ (fun y => eq_sym (E t y)) A1).
  - apply (isd_ext _ _ _ _ (fun s => eq_sym (E s x)) A4).
Qed.
End Value.
