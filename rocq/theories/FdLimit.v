(** Consistency of the finite-difference schemes with the Black-Scholes equation in log-price, and comparison of the computed
    values with smooth super-solutions: lemmas for FdConverge.v. *)
From Coq Require Import ZArith Reals List Bool Lra Lia Psatz.
From Coquelicot Require Import Coquelicot.
From Verif Require Import Res DateModel InterpModel RList PayoffModel FdModel FdProofs FdProps BsmProofs.
Import ListNotations.
Open Scope R_scope.

(** ** Taylor bounds by repeated use of the mean value theorem *)
Lemma mvt_cc (f f' : R -> R) a b : a <= b -> (forall u, a <= u <= b -> is_derive f u (f' u)) -> exists c, a <= c <= b /\ f b - f a = f' c * (b - a).
Proof.
  intros L D. destruct (MVT_gen f a b f') as (c & Hc & E).
  - intros x Hx. rewrite Rmin_left, Rmax_right in Hx by exact L. apply D. lra.
  - intros x Hx. rewrite Rmin_left, Rmax_right in Hx by exact L. apply continuity_pt_filterlim. apply (ex_derive_continuous (K:=R_AbsRing) (V:=R_NormedModule) f). exists (f' x). apply D, Hx.
  - rewrite Rmin_left, Rmax_right in Hc by exact L. exists c. split; assumption.
Qed.
Lemma grow (f f' : R -> R) a b : a <= b -> (forall u, a <= u <= b -> is_derive f u (f' u)) -> (forall u, a <= u <= b -> 0 <= f' u) -> f a <= f b.
Proof. intros L D P. destruct (mvt_cc f f' a b L D) as (c & Hc & E). specialize (P c Hc). assert (0 <= f' c * (b - a)) by (apply Rmult_le_pos; lra). lra. Qed.
Lemma power_bound C k (g g' : R -> R) h : 0 <= h -> g 0 = 0 -> (forall u, 0 <= u <= h -> is_derive g u (g' u)) -> (forall u, 0 <= u <= h -> Rabs (g' u) <= C * u ^ k) ->
  Rabs (g h) <= C / INR (S k) * h ^ S k.
Proof.
  intros H G0 D B. assert (IK : 0 < INR (S k)) by (apply lt_0_INR; lia).
  assert (P : forall u, is_derive (fun u => C / INR (S k) * u ^ S k) u (C * u ^ k)).
  { intro u. apply (isd_eq _ _ (C / INR (S k) * (INR (S k) * 1 * u ^ k))); [|field; lra]. apply (is_derive_scal (fun u => u ^ S k) u (C / INR (S k))). apply (is_derive_pow (fun u => u) (S k) u 1). apply d_id. }
  apply Rabs_le. split.
  - assert (K : (fun u => C / INR (S k) * u ^ S k + g u) 0 <= (fun u => C / INR (S k) * u ^ S k + g u) h).
    { apply (grow (fun u => C / INR (S k) * u ^ S k + g u) (fun u => C * u ^ k + g' u)); [exact H| |].
      - intros u Hu. apply d_add; [apply P|apply D, Hu].
      - intros u Hu. specialize (B u Hu). apply Rabs_le_between in B. lra. }
    cbv beta in K. rewrite G0, pow_i, Rmult_0_r in K by lia. lra.
  - assert (K : (fun u => C / INR (S k) * u ^ S k - g u) 0 <= (fun u => C / INR (S k) * u ^ S k - g u) h).
    { apply (grow (fun u => C / INR (S k) * u ^ S k - g u) (fun u => C * u ^ k - g' u)); [exact H| |].
      - intros u Hu. apply d_sub; [apply P|apply D, Hu].
      - intros u Hu. specialize (B u Hu). apply Rabs_le_between in B. lra. }
    cbv beta in K. rewrite G0, pow_i, Rmult_0_r in K by lia. lra.
Qed.
Lemma d_shift (f : R -> R) x u d : is_derive f (x + u) d -> is_derive (fun u => f (x + u)) u d.
Proof. intro H. apply (isd_eq _ _ (1 * d)); [|ring]. apply (is_derive_comp f (fun u => x + u) u d 1 H). apply (isd_eq _ _ (0 + 1)); [apply d_add; [apply d_const|apply d_id]|ring]. Qed.
Lemma d_shift_m (f : R -> R) x u d : is_derive f (x - u) d -> is_derive (fun u => f (x - u)) u (- d).
Proof. intro H. apply (isd_eq _ _ (-1 * d)); [|ring]. apply (is_derive_comp f (fun u => x - u) u d (-1) H). apply (isd_eq _ _ (0 - 1)); [apply d_sub; [apply d_const|apply d_id]|ring]. Qed.

Lemma central1 (f f1 f2 f3 : R -> R) x h M : 0 <= h ->
  (forall y, x - h <= y <= x + h -> is_derive f y (f1 y) /\ is_derive f1 y (f2 y) /\ is_derive f2 y (f3 y) /\ Rabs (f3 y) <= M) ->
  Rabs (f (x + h) - f (x - h) - 2 * h * f1 x) <= M / 3 * h ^ 3.
Proof.
  intros H D.
  assert (B2 : forall u, 0 <= u <= h -> Rabs (f2 (x + u) - f2 (x - u)) <= 2 * M * u).
  { intros u Hu. pose proof (power_bound (2 * M) 0 (fun u => f2 (x + u) - f2 (x - u)) (fun u => f3 (x + u) - - f3 (x - u)) u) as K. cbv beta in K.
    replace (2 * M * u) with (2 * M / INR 1 * u ^ 1) by (simpl; field). apply K; [lra|rewrite Rplus_0_r, Rminus_0_r; ring| |].
    - intros w Hw. apply d_sub; [apply d_shift|apply d_shift_m]; apply D; lra.
    - intros w Hw. simpl. replace (f3 (x + w) - - f3 (x - w)) with (f3 (x + w) + f3 (x - w)) by ring. apply Rle_trans with (1 := Rabs_triang _ _). destruct (D (x + w)) as (_ & _ & _ & A1); [lra|]. destruct (D (x - w)) as (_ & _ & _ & A2); [lra|]. lra. }
  assert (B1 : forall u, 0 <= u <= h -> Rabs (f1 (x + u) + f1 (x - u) - 2 * f1 x) <= M * u ^ 2).
  { intros u Hu. pose proof (power_bound (2 * M) 1 (fun u => f1 (x + u) + f1 (x - u) - 2 * f1 x) (fun u => f2 (x + u) + - f2 (x - u) - 0) u) as K. cbv beta in K.
    replace (M * u ^ 2) with (2 * M / INR 2 * u ^ 2) by (simpl; field). apply K; [lra|rewrite Rplus_0_r, Rminus_0_r; ring| |].
    - intros w Hw. apply d_sub; [apply d_add; [apply d_shift|apply d_shift_m]; apply D; lra|apply d_const].
    - intros w Hw. specialize (B2 w ltac:(lra)). replace (f2 (x + w) + - f2 (x - w) - 0) with (f2 (x + w) - f2 (x - w)) by ring. simpl. rewrite Rmult_1_r. exact B2. }
  pose proof (power_bound M 2 (fun u => f (x + u) - f (x - u) - 2 * u * f1 x) (fun u => f1 (x + u) - - f1 (x - u) - 2 * f1 x) h) as K. cbv beta in K.
  replace (M / 3 * h ^ 3) with (M / INR 3 * h ^ 3) by (simpl; field). apply K; [exact H|rewrite Rplus_0_r, Rminus_0_r; ring| |].
  - intros w Hw. apply d_sub; [apply d_sub; [apply d_shift|apply d_shift_m]; apply D; lra|]. auto_derive; [exact I|ring].
  - intros w Hw. specialize (B1 w Hw). replace (f1 (x + w) - - f1 (x - w) - 2 * f1 x) with (f1 (x + w) + f1 (x - w) - 2 * f1 x) by ring. exact B1.
Qed.
Lemma central2 (f f1 f2 f3 f4 : R -> R) x h M : 0 <= h ->
  (forall y, x - h <= y <= x + h -> is_derive f y (f1 y) /\ is_derive f1 y (f2 y) /\ is_derive f2 y (f3 y) /\ is_derive f3 y (f4 y) /\ Rabs (f4 y) <= M) ->
  Rabs (f (x + h) - 2 * f x + f (x - h) - h ^ 2 * f2 x) <= M / 12 * h ^ 4.
Proof.
  intros H D. pose proof (power_bound (M / 3) 3 (fun u => f (x + u) - 2 * f x + f (x - u) - u ^ 2 * f2 x) (fun u => f1 (x + u) - 0 + - f1 (x - u) - 2 * u * f2 x) h) as K. cbv beta in K.
  replace (M / 12 * h ^ 4) with (M / 3 / INR 4 * h ^ 4) by (simpl; field). apply K; [exact H|rewrite Rplus_0_r, Rminus_0_r; ring| |].
  - intros w Hw. apply d_sub; [apply d_add; [apply d_sub; [apply d_shift; apply D; lra|apply d_const]|apply d_shift_m; apply D; lra]|]. auto_derive; [exact I|ring].
  - intros w Hw. replace (f1 (x + w) - 0 + - f1 (x - w) - 2 * w * f2 x) with (f1 (x + w) - f1 (x - w) - 2 * w * f2 x) by ring. apply (central1 f1 f2 f3 f4); [lra|]. intros y Hy. destruct (D y) as (_ & D1 & D2 & D3 & D4); [lra|]. exact (conj D1 (conj D2 (conj D3 D4))).
Qed.

(** ** Smooth super-solutions of F_t = a F_xx + b F_x on a rectangle *)
Definition regular (a b tl th xl xh M : R) (F : R -> R -> R) : Prop :=
  exists F1 F2 F3 F4 P Q : R -> R -> R, forall t x, tl <= t <= th -> xl <= x <= xh ->
    (is_derive (F t) x (F1 t x) /\ is_derive (F1 t) x (F2 t x) /\ is_derive (F2 t) x (F3 t x) /\ is_derive (F3 t) x (F4 t x)) /\
    (Rabs (F1 t x) <= M /\ Rabs (F3 t x) <= M /\ Rabs (F4 t x) <= M) /\
    is_derive (fun s => F s x) t (P t x) /\ a * F2 t x + b * F1 t x <= P t x /\
    is_derive (fun s => a * F2 s x + b * F1 s x) t (Q t x) /\ Rabs (Q t x) <= M.
(** the central difference operator *)
Definition Lh (a b h : R) (f : R -> R) (x : R) : R := a * ((f (x + h) - 2 * f x + f (x - h)) / h ^ 2) + b * ((f (x + h) - f (x - h)) / (2 * h)).
Lemma consistent a b tl th xl xh M F t k x h w : regular a b tl th xl xh M F -> 0 <= a -> 0 < k -> 0 < h -> 0 <= w <= 1 ->
  tl <= t -> t + k <= th -> xl <= x - h -> x + h <= xh ->
  k * (w * Lh a b h (F (t + k)) x + (1 - w) * Lh a b h (F t) x) - k * (M * (k + (a / 12 + Rabs b / 6) * h ^ 2)) <= F (t + k) x - F t x.
Proof.
  intros (F1 & F2 & F3 & F4 & P & Q & H) A K Hh W T1 T2 X1 X2.
  assert (M0 : 0 <= M). { destruct (H t x) as (_ & (B & _) & _); [lra|lra|]. pose proof (Rabs_pos (F1 t x)). lra. }
  assert (LL : forall s, tl <= s <= th -> Rabs (Lh a b h (F s) x - (a * F2 s x + b * F1 s x)) <= M * ((a / 12 + Rabs b / 6) * h ^ 2)).
  { intros s Hs. assert (C1 : Rabs (F s (x + h) - F s (x - h) - 2 * h * F1 s x) <= M / 3 * h ^ 3).
    { apply (central1 (F s) (F1 s) (F2 s) (F3 s)); [lra|]. intros y Hy. destruct (H s y) as ((D1 & D2 & D3 & _) & (_ & B & _) & _); [exact Hs|lra|]. exact (conj D1 (conj D2 (conj D3 B))). }
    assert (C2 : Rabs (F s (x + h) - 2 * F s x + F s (x - h) - h ^ 2 * F2 s x) <= M / 12 * h ^ 4).
    { apply (central2 (F s) (F1 s) (F2 s) (F3 s) (F4 s)); [lra|]. intros y Hy. destruct (H s y) as ((D1 & D2 & D3 & D4) & (_ & _ & B) & _); [exact Hs|lra|]. exact (conj D1 (conj D2 (conj D3 (conj D4 B)))). }
    replace (Lh a b h (F s) x - (a * F2 s x + b * F1 s x)) with (a / h ^ 2 * (F s (x + h) - 2 * F s x + F s (x - h) - h ^ 2 * F2 s x) + b / (2 * h) * (F s (x + h) - F s (x - h) - 2 * h * F1 s x)) by (unfold Lh; field; lra).
    apply Rle_trans with (1 := Rabs_triang _ _). rewrite !Rabs_mult.
    assert (A1 : Rabs (a / h ^ 2) = a / h ^ 2) by (apply Rabs_right, Rle_ge; apply Rmult_le_pos; [exact A|left; apply Rinv_0_lt_compat, pow_lt, Hh]).
    assert (A2 : Rabs (b / (2 * h)) = Rabs b / (2 * h)) by (unfold Rdiv; rewrite Rabs_mult, (Rabs_right (/ (2 * h))); [reflexivity|left; apply Rinv_0_lt_compat; lra]).
    rewrite A1, A2. replace (M * ((a / 12 + Rabs b / 6) * h ^ 2)) with (a / h ^ 2 * (M / 12 * h ^ 4) + Rabs b / (2 * h) * (M / 3 * h ^ 3)) by (field; lra).
    apply Rplus_le_compat; apply Rmult_le_compat_l; try assumption.
    - apply Rmult_le_pos; [exact A|left; apply Rinv_0_lt_compat, pow_lt, Hh].
    - apply Rmult_le_pos; [apply Rabs_pos|left; apply Rinv_0_lt_compat; lra]. }
  destruct (mvt_cc (fun s => F s x) (fun s => P s x) t (t + k)) as (c & Hc & E); [lra|intros u Hu; apply H; lra|]. cbv beta in E. rewrite E. replace (t + k - t) with k by ring.
  assert (PL : a * F2 c x + b * F1 c x <= P c x) by (apply H; lra).
  assert (LIP : forall s, t <= s <= t + k -> Rabs ((a * F2 c x + b * F1 c x) - (a * F2 s x + b * F1 s x)) <= M * k).
  { intros s Hs. destruct (Rle_dec s c) as [L|L].
    - destruct (mvt_cc (fun s => a * F2 s x + b * F1 s x) (fun s => Q s x) s c L) as (e & He & E2); [intros u Hu; apply H; lra|]. cbv beta in E2. rewrite E2, Rabs_mult, (Rabs_right (c - s)) by lra. apply Rmult_le_compat; [apply Rabs_pos|lra|apply H; lra|lra].
    - destruct (mvt_cc (fun s => a * F2 s x + b * F1 s x) (fun s => Q s x) c s) as (e & He & E2); [lra|intros u Hu; apply H; lra|]. cbv beta in E2. rewrite Rabs_minus_sym, E2, Rabs_mult, (Rabs_right (s - c)) by lra. apply Rmult_le_compat; [apply Rabs_pos|lra|apply H; lra|lra]. }
  pose proof (LL (t + k) ltac:(lra)) as L1. pose proof (LL t ltac:(lra)) as L0. pose proof (LIP (t + k) ltac:(lra)) as I1. pose proof (LIP t ltac:(lra)) as I0.
  apply Rabs_le_between in L1, L0, I1, I0. rewrite (Rmult_comm (P c x) k), <- Rmult_minus_distr_l. apply Rmult_le_compat_l; [lra|].
  set (e := M * ((a / 12 + Rabs b / 6) * h ^ 2)) in *. replace (M * (k + (a / 12 + Rabs b / 6) * h ^ 2)) with (M * k + e) by (unfold e; ring).
  set (l1 := Lh a b h (F (t + k)) x) in *. set (l0 := Lh a b h (F t) x) in *. set (lc := a * F2 c x + b * F1 c x) in *.
  assert (w * l1 <= w * (lc + (M * k + e))) by (apply Rmult_le_compat_l; lra). assert ((1 - w) * l0 <= (1 - w) * (lc + (M * k + e))) by (apply Rmult_le_compat_l; lra). lra.
Qed.

Lemma regular_weaken a b tl th xl xh M M' F : M <= M' -> regular a b tl th xl xh M F -> regular a b tl th xl xh M' F.
Proof.
  intros L (F1 & F2 & F3 & F4 & P & Q & H). exists F1, F2, F3, F4, P, Q. intros t x Ht Hx. destruct (H t x Ht Hx) as (D & (B1 & B3 & B4) & E & F' & G & B). split; [exact D|]. split; [lra|]. split; [exact E|]. split; [exact F'|]. split; [exact G|lra].
Qed.
Lemma regular_add a b tl th xl xh M M' F G : regular a b tl th xl xh M F -> regular a b tl th xl xh M' G -> regular a b tl th xl xh (M + M') (fun t x => F t x + G t x).
Proof.
  intros (F1 & F2 & F3 & F4 & P & Q & H) (G1 & G2 & G3 & G4 & P' & Q' & H').
  exists (fun t x => F1 t x + G1 t x), (fun t x => F2 t x + G2 t x), (fun t x => F3 t x + G3 t x), (fun t x => F4 t x + G4 t x), (fun t x => P t x + P' t x), (fun t x => Q t x + Q' t x).
  intros t x Ht Hx. destruct (H t x Ht Hx) as ((D1 & D2 & D3 & D4) & (B1 & B3 & B4) & E & F' & K & B). destruct (H' t x Ht Hx) as ((D1' & D2' & D3' & D4') & (B1' & B3' & B4') & E' & F'' & K' & B').
  split; [split; [|split; [|split]]; apply d_add; assumption|]. split; [split; [|split]; apply Rle_trans with (1 := Rabs_triang _ _); lra|]. split; [apply d_add; assumption|]. split; [lra|].
  split; [|apply Rle_trans with (1 := Rabs_triang _ _); lra]. apply (isd_ext (fun s => (a * F2 s x + b * F1 s x) + (a * G2 s x + b * G1 s x))); [intro y; ring|]. apply d_add; assumption.
Qed.
(** multiples by a non-negative number, or by any number of an exact solution *)
Definition exact (a b tl th xl xh M : R) (F : R -> R -> R) : Prop :=
  exists F1 F2 F3 F4 Q : R -> R -> R, forall t x, tl <= t <= th -> xl <= x <= xh ->
    (is_derive (F t) x (F1 t x) /\ is_derive (F1 t) x (F2 t x) /\ is_derive (F2 t) x (F3 t x) /\ is_derive (F3 t) x (F4 t x)) /\
    (Rabs (F1 t x) <= M /\ Rabs (F3 t x) <= M /\ Rabs (F4 t x) <= M) /\
    is_derive (fun s => F s x) t (a * F2 t x + b * F1 t x) /\
    is_derive (fun s => a * F2 s x + b * F1 s x) t (Q t x) /\ Rabs (Q t x) <= M.
Lemma exact_regular a b tl th xl xh M F : exact a b tl th xl xh M F -> regular a b tl th xl xh M F.
Proof.
  intros (F1 & F2 & F3 & F4 & Q & H). exists F1, F2, F3, F4, (fun t x => a * F2 t x + b * F1 t x), Q. intros t x Ht Hx. destruct (H t x Ht Hx) as (D & B & E & G & K). split; [exact D|]. split; [exact B|]. split; [exact E|]. split; [lra|]. split; assumption.
Qed.
Lemma regular_scale c a b tl th xl xh M F : 0 <= c -> regular a b tl th xl xh M F -> regular a b tl th xl xh (c * M) (fun t x => c * F t x).
Proof.
  intros C (F1 & F2 & F3 & F4 & P & Q & H). exists (fun t x => c * F1 t x), (fun t x => c * F2 t x), (fun t x => c * F3 t x), (fun t x => c * F4 t x), (fun t x => c * P t x), (fun t x => c * Q t x).
  assert (S : forall (f : R -> R) y d, is_derive f y d -> is_derive (fun u => c * f u) y (c * d)) by (intros f y d Hd; apply (is_derive_scal f y c d Hd)).
  assert (SB : forall r, Rabs r <= M -> Rabs (c * r) <= c * M) by (intros r Hr; rewrite Rabs_mult, (Rabs_right c) by lra; apply Rmult_le_compat_l; assumption).
  intros t x Ht Hx. destruct (H t x Ht Hx) as ((D1 & D2 & D3 & D4) & (B1 & B3 & B4) & E & F' & K & B). split; [split; [|split; [|split]]; apply S; assumption|]. split; [split; [|split]; apply SB; assumption|]. split; [apply S, E|].
  split; [replace (a * (c * F2 t x) + b * (c * F1 t x)) with (c * (a * F2 t x + b * F1 t x)) by ring; apply Rmult_le_compat_l; assumption|].
  split; [|apply SB, B]. apply (isd_ext (fun s => c * (a * F2 s x + b * F1 s x))); [intro y; ring|]. apply S, K.
Qed.
Lemma exact_scale c a b tl th xl xh M F : exact a b tl th xl xh M F -> exact a b tl th xl xh (Rabs c * M) (fun t x => c * F t x).
Proof.
  intros (F1 & F2 & F3 & F4 & Q & H). exists (fun t x => c * F1 t x), (fun t x => c * F2 t x), (fun t x => c * F3 t x), (fun t x => c * F4 t x), (fun t x => c * Q t x).
  assert (S : forall (f : R -> R) y d, is_derive f y d -> is_derive (fun u => c * f u) y (c * d)) by (intros f y d Hd; apply (is_derive_scal f y c d Hd)).
  assert (SB : forall r, Rabs r <= M -> Rabs (c * r) <= Rabs c * M) by (intros r Hr; rewrite Rabs_mult; apply Rmult_le_compat_l; [apply Rabs_pos|assumption]).
  intros t x Ht Hx. destruct (H t x Ht Hx) as ((D1 & D2 & D3 & D4) & (B1 & B3 & B4) & E & K & B). split; [split; [|split; [|split]]; apply S; assumption|]. split; [split; [|split]; apply SB; assumption|].
  split; [apply (isd_eq _ _ (c * (a * F2 t x + b * F1 t x))); [apply S, E|ring]|].
  split; [|apply SB, B]. apply (isd_ext (fun s => c * (a * F2 s x + b * F1 s x))); [intro y; ring|]. apply S, K.
Qed.
Lemma exact_add a b tl th xl xh M M' F G : exact a b tl th xl xh M F -> exact a b tl th xl xh M' G -> exact a b tl th xl xh (M + M') (fun t x => F t x + G t x).
Proof.
  intros (F1 & F2 & F3 & F4 & Q & H) (G1 & G2 & G3 & G4 & Q' & H').
  exists (fun t x => F1 t x + G1 t x), (fun t x => F2 t x + G2 t x), (fun t x => F3 t x + G3 t x), (fun t x => F4 t x + G4 t x), (fun t x => Q t x + Q' t x).
  intros t x Ht Hx. destruct (H t x Ht Hx) as ((D1 & D2 & D3 & D4) & (B1 & B3 & B4) & E & K & B). destruct (H' t x Ht Hx) as ((D1' & D2' & D3' & D4') & (B1' & B3' & B4') & E' & K' & B').
  split; [split; [|split; [|split]]; apply d_add; assumption|]. split; [split; [|split]; apply Rle_trans with (1 := Rabs_triang _ _); lra|].
  split; [apply (isd_eq _ _ ((a * F2 t x + b * F1 t x) + (a * G2 t x + b * G1 t x))); [apply d_add; assumption|ring]|].
  split; [|apply Rle_trans with (1 := Rabs_triang _ _); lra]. apply (isd_ext (fun s => (a * F2 s x + b * F1 s x) + (a * G2 s x + b * G1 s x))); [intro y; ring|]. apply d_add; assumption.
Qed.

(** ** Comparison of the computed values with discrete super-solutions *)
Definition theta (k : scheme) : R := match k with Explicit => 0 | Implicit => 1 | CrankNicolson => / 2 end.
Lemma theta_bounds k : 0 <= theta k <= 1.
Proof. destruct k; simpl; lra. Qed.
Lemma lin_theta k m t v : fd_valid m -> length v = (f_np m - 1)%nat -> exists w, lin_of k m t v = Ret w /\ length w = (f_np m - 1)%nat /\ forall i, (i < f_np m - 1)%nat ->
  tri_row (- (theta k * cx m) + theta k * cy m) (1 + 2 * (theta k * cx m)) (- (theta k * cx m) - theta k * cy m) w i =
  tri_row ((1 - theta k) * (cx m - cy m)) (1 - 2 * ((1 - theta k) * cx m)) ((1 - theta k) * (cx m + cy m)) v i + bweight m * boundary m t i.
Proof.
  intros V L. destruct (fd_lin_solves m t v V L) as ((w1 & E1 & L1 & H1) & (w2 & E2 & L2 & H2) & (w3 & E3 & L3 & H3)). destruct k; cbn [lin_of theta].
  - exists w1. split; [exact E1|]. split; [lia|]. intros i Hi. specialize (H1 i ltac:(lia)). rewrite op_row in H1. unfold tri_row in *. lra.
  - exists w2. split; [exact E2|]. split; [lia|]. intros i Hi. specialize (H2 i ltac:(lia)). rewrite op_row in H2. unfold tri_row in *. rewrite <- (Rmult_1_l (nth i v 0)) in H2. lra.
  - exists w3. split; [exact E3|]. split; [lia|]. intros i Hi. specialize (H3 i ltac:(lia)). rewrite !op_row in H3. unfold tri_row in *. lra.
Qed.
Definition edge_lo (m : fd) (t : nat) : R := match f_tf m with Call => 0 | Put => put_boundary m (INR t * dt m) (x_min m) end.
Definition edge_hi (m : fd) (t : nat) : R := match f_tf m with Call => call_boundary m (INR t * dt m) (x_max m) | Put => 0 end.
Lemma boundary_edges m t i : fd_valid m -> (i < f_np m - 1)%nat ->
  bweight m * boundary m t i = (cx m - cy m) * (if (i =? 0)%nat then edge_lo m t else 0) + (cx m + cy m) * (if (S i =? f_np m - 1)%nat then edge_hi m t else 0).
Proof.
  intros V Hi. unfold bweight, boundary, edge_lo, edge_hi, call_boundary, put_boundary, dt. destruct (f_tf m).
  - destruct (Nat.eqb_spec i (f_np m - 2)), (Nat.eqb_spec (S i) (f_np m - 1)); try lia; destruct (i =? 0)%nat; ring.
  - destruct (i =? 0)%nat, (S i =? f_np m - 1)%nat; ring.
Qed.
(** the stencil of one step *)
Definition sten (m : fd) (u : nat -> R) (i : nat) : R := (cx m - cy m) * u (i - 1)%nat - 2 * cx m * u i + (cx m + cy m) * u (S i).
Definition grid_super (k : scheme) (m : fd) (g : R) (U : nat -> nat -> R) : Prop :=
  (forall i, (1 <= i < f_np m)%nat -> g * payoff m (exp (node m i)) <= U O i) /\
  (forall t i, (t < f_nt m)%nat -> (1 <= i < f_np m)%nat -> U t i + (1 - theta k) * sten m (U t) i <= U (S t) i - theta k * sten m (U (S t)) i) /\
  (forall t t', (t <= f_nt m)%nat -> (1 <= t' <= f_nt m)%nat -> (t <= t' <= S t)%nat -> g * edge_lo m t' <= U t O /\ g * edge_hi m t' <= U t (f_np m)).
Lemma tri_row_map_scale g c d b v i : tri_row c d b (map (Rmult g) v) i = g * tri_row c d b v i.
Proof.
  unfold tri_row. assert (N : forall j, nth j (map (Rmult g) v) 0 = g * nth j v 0) by (intro j; rewrite <- (Rmult_0_r g) at 1; apply map_nth).
  replace (prev (map (Rmult g) v) i) with (g * prev v i) by (destruct i; cbn [prev]; [ring|rewrite N; reflexivity]). rewrite !N. ring.
Qed.
Lemma row_on_grid m c d b (u : nat -> R) i : (i < f_np m - 1)%nat ->
  tri_row c d b (map u (seq 1 (f_np m - 1))) i = c * (if (i =? 0)%nat then 0 else u i) + d * u (S i) + b * (if (S i =? f_np m - 1)%nat then 0 else u (S (S i))).
Proof.
  intro Hi. unfold tri_row. rewrite (nth_seq1 u) by exact Hi. f_equal; [f_equal; f_equal|f_equal].
  - destruct i; cbn [prev Nat.eqb]; [reflexivity|]. apply nth_seq1. lia.
  - destruct (Nat.eqb_spec (S i) (f_np m - 1)) as [E|E]; [rewrite nth_overflow by (rewrite map_length, seq_length; lia); reflexivity|apply nth_seq1; lia].
Qed.
Lemma super_bounds k m g U : fd_valid m -> stable k m -> early_exercise m = false -> grid_super k m g U ->
  exists w, time_loop m (step_of k m) = Ret w /\ length w = (f_np m - 1)%nat /\ forall i, (i < f_np m - 1)%nat -> g * nth i w 0 <= U (f_nt m) (S i).
Proof.
  intros V S EE (G0 & G1 & G2). destruct (stable_bounds k m V S) as (Y & X & Z). pose proof (theta_bounds k) as TH. assert (N2 : (2 <= f_np m - 1)%nat) by (destruct V as (_ & _ & _ & _ & _ & _ & V); lia).
  set (PL := fun t => map (U t) (seq 1 (f_np m - 1))). assert (LP : forall t, length (PL t) = (f_np m - 1)%nat) by (intro t; unfold PL; rewrite map_length, seq_length; reflexivity).
  assert (TX : 0 <= theta k * cx m) by (apply Rmult_le_pos; lra). assert (TX1 : 0 <= (1 - theta k) * (cx m - cy m)) by (apply Rmult_le_pos; lra). assert (TX2 : 0 <= (1 - theta k) * (cx m + cy m)) by (apply Rmult_le_pos; lra).
  assert (TD : 0 <= 1 - 2 * ((1 - theta k) * cx m)) by (destruct k; cbn [theta] in *; lra).
  assert (TY : - (theta k * cx m) <= theta k * cy m <= theta k * cx m) by (split; [rewrite <- Ropp_mult_distr_r_reverse|]; apply Rmult_le_compat_l; lra).
  destruct (loop_inv m (step_of k m) (fun t v => (t <= f_nt m)%nat -> vle (f_np m - 1) (map (Rmult g) v) (PL t))) as (w & E & H).
  - intros _. split; [rewrite map_length; apply initial_length|]. split; [apply LP|]. intros i Hi. unfold PL. rewrite (nth_seq1 (U 0%nat)) by exact Hi.
    rewrite <- (Rmult_0_r g) at 1. rewrite (map_nth (Rmult g)), initial_nth by exact Hi. apply G0. lia.
  - intros s u Hs H. specialize (H ltac:(lia)). assert (LU : length u = (f_np m - 1)%nat) by (destruct H as (L & _); rewrite map_length in L; exact L).
    rewrite step_of_eq. unfold exercising, maybe_exercise. rewrite EE. destruct (lin_theta k m (Datatypes.S s) u V LU) as (w & -> & LW & W). cbn [bind]. exists w. split; [reflexivity|]. intros _.
    apply (M_matrix _ (theta k * cx m) (theta k * cy m)); try assumption; [rewrite map_length; exact LW|apply LP|]. intros i Hi. rewrite tri_row_map_scale, W by exact Hi. rewrite Rmult_plus_distr_l, <- tri_row_map_scale, boundary_edges by assumption.
    pose proof (tri_row_le _ _ _ _ _ _ i TX1 TD TX2 H) as T. unfold PL in T. rewrite row_on_grid in T by exact Hi. unfold PL. rewrite row_on_grid by exact Hi.
    specialize (G1 s (Datatypes.S i) Hs ltac:(lia)). unfold sten in G1. replace (Datatypes.S i - 1)%nat with i in G1 by lia.
    destruct (G2 s (Datatypes.S s) ltac:(lia) ltac:(lia) ltac:(lia)) as [GL0 GH0]. destruct (G2 (Datatypes.S s) (Datatypes.S s) ltac:(lia) ltac:(lia) ltac:(lia)) as [GL1 GH1].
    assert (EL : (cx m - cy m) * (g * edge_lo m (Datatypes.S s)) <= (cx m - cy m) * (theta k * U (Datatypes.S s) O + (1 - theta k) * U s O)).
    { apply Rmult_le_compat_l; [lra|]. assert (theta k * (g * edge_lo m (Datatypes.S s)) <= theta k * U (Datatypes.S s) O) by (apply Rmult_le_compat_l; lra). assert ((1 - theta k) * (g * edge_lo m (Datatypes.S s)) <= (1 - theta k) * U s O) by (apply Rmult_le_compat_l; lra). lra. }
    assert (EH : (cx m + cy m) * (g * edge_hi m (Datatypes.S s)) <= (cx m + cy m) * (theta k * U (Datatypes.S s) (f_np m) + (1 - theta k) * U s (f_np m))).
    { apply Rmult_le_compat_l; [lra|]. assert (theta k * (g * edge_hi m (Datatypes.S s)) <= theta k * U (Datatypes.S s) (f_np m)) by (apply Rmult_le_compat_l; lra). assert ((1 - theta k) * (g * edge_hi m (Datatypes.S s)) <= (1 - theta k) * U s (f_np m)) by (apply Rmult_le_compat_l; lra). lra. }
    destruct (Nat.eqb_spec i 0) as [I0|I0]; destruct (Nat.eqb_spec (Datatypes.S i) (f_np m - 1)) as [I1|I1]; try lia.
    + rewrite I0 in *. lra.
    + assert (IE : f_np m = Datatypes.S (Datatypes.S i)) by lia. rewrite IE in EH. lra.
    + lra.
  - specialize (H (le_n _)). destruct H as (L & _ & H). rewrite map_length in L. exists w. split; [exact E|]. split; [exact L|]. intros i Hi. specialize (H i Hi). unfold PL in H. rewrite (nth_seq1 (U (f_nt m))) in H by exact Hi.
    rewrite <- (Rmult_0_r g) in H at 1. rewrite (map_nth (Rmult g)) in H. exact H.
Qed.
