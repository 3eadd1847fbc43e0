(** Facts about the autocorrelation of fractional noise and about the Dirichlet and
    Fejer kernels, used for the circulant embedding. *)
From Coq Require Import Reals Lra Lia List Arith.
From Coquelicot Require Import Coquelicot.
From Verif Require Import InterpModel InterpProofs StatModel MatLib SimModel AdProofs.
Import ListNotations.
Open Scope R_scope.

(** ** Sums *)
Lemma bs_app a b f : bs (a + b) f = bs a f + bs b (fun i => f (a + i)%nat).
Proof.
  induction b as [|b IH]; [rewrite Nat.add_0_r; simpl; ring|].
  rewrite <- plus_n_Sm. cbn [bs]. rewrite IH. ring.
Qed.
Lemma bs_rev n f : bs n f = bs n (fun i => f (n - 1 - i)%nat).
Proof.
  induction n as [|n IH]; [reflexivity|].
  rewrite (bs_shift n (fun i => f (S n - 1 - i)%nat)). cbv beta. replace (S n - 1 - 0)%nat with n by lia. cbn [bs]. rewrite IH.
  rewrite Rplus_comm. f_equal. apply bs_ext. intros i Hi. f_equal. lia.
Qed.

(** ** Powers *)
Lemma mvt_open f df a b : a < b -> (forall x, a < x < b -> is_derive f x (df x)) ->
  (forall x, a <= x <= b -> continuity_pt f x) -> exists c, a < c < b /\ f b - f a = df c * (b - a).
Proof.
  intros Hab Hd Hc.
  assert (pr : forall c, a < c < b -> derivable_pt f c).
  { intros c Hin. exists (df c). apply is_derive_Reals, Hd, Hin. }
  destruct (MVT f id a b pr (fun c _ => derivable_pt_id c) Hab Hc (fun c _ => derivable_continuous_pt id c (derivable_pt_id c))) as (c & P & E).
  exists c. split; [exact P|].
  assert (D1 : derive_pt f c (pr c P) = df c).
  { apply derive_pt_eq_0, is_derive_Reals, Hd, P. }
  rewrite D1 in E. rewrite derive_pt_id in E. unfold id in E. lra.
Qed.

Definition pw (b x : R) : R := if Rlt_dec 0 x then Rpower x b else 0.
Lemma pw_pos b x : 0 < x -> pw b x = Rpower x b.
Proof. intros H. unfold pw. destruct (Rlt_dec 0 x); [reflexivity|lra]. Qed.
Lemma d_pw b x : 0 < x -> is_derive (pw b) x (b * pw (b - 1) x).
Proof.
  intros H. rewrite pw_pos by exact H. apply (is_derive_ext_loc (fun t => Rpower t b)).
  - exists (mkposreal x H). intros y Hy. unfold ball in Hy; simpl in Hy. unfold AbsRing_ball, abs, minus, plus, opp in Hy; simpl in Hy.
    apply Rabs_def2 in Hy. rewrite pw_pos by lra. reflexivity.
  - apply d_rpower, H.
Qed.
Lemma cont_pw_pos b x : 0 < x -> continuity_pt (pw b) x.
Proof.
  intros H. apply derivable_continuous_pt. exists (b * pw (b - 1) x). apply is_derive_Reals, d_pw, H.
Qed.
Lemma cont_pw b x : 1 <= b -> 0 <= x -> continuity_pt (pw b) x.
Proof.
  intros Hb [H|<-]; [apply cont_pw_pos, H|].
  intros eps He. exists (Rmin eps 1). split; [apply Rmin_pos; lra|].
  intros y [_ Hy]. unfold dist, Base, R_met, R_dist in *; simpl in *.
  replace (pw b 0) with 0 by (unfold pw; destruct (Rlt_dec 0 0); [lra|reflexivity]). rewrite Rminus_0_r in *.
  unfold pw. destruct (Rlt_dec 0 y) as [P|N]; [|rewrite Rabs_R0; lra].
  rewrite Rabs_pos_eq in Hy by lra.
  assert (y < eps /\ y < 1) as [Y1 Y2] by (split; eapply Rlt_le_trans; [exact Hy|apply Rmin_l|exact Hy|apply Rmin_r]).
  rewrite Rabs_pos_eq by (left; apply exp_pos).
  apply Rle_lt_trans with y; [|exact Y1].
  rewrite <- (Rpower_1 y P) at 2. unfold Rpower.
  assert (ln y < 0) by (rewrite <- ln_1; apply ln_increasing; lra).
  destruct (Req_dec b 1) as [->|Nb]; [right; reflexivity|]. left. apply exp_increasing. nra.
Qed.

Lemma pw_decr b x y : b <= 0 -> 0 < x -> x <= y -> pw b y <= pw b x.
Proof.
  intros Hb Hx Hy. rewrite !pw_pos by lra. unfold Rpower.
  assert (ln x <= ln y) by (destruct Hy as [Hy|<-]; [left; apply ln_increasing; lra|right; reflexivity]).
  destruct (Rle_lt_or_eq_dec (b * ln y) (b * ln x)) as [L|E]; [nra|left; apply exp_increasing, L|rewrite E; right; reflexivity].
Qed.
Lemma pw_nonneg b x : 0 <= pw b x.
Proof. unfold pw. destruct (Rlt_dec 0 x); [left; apply exp_pos|lra]. Qed.

Definition sd (f : R -> R) (x : R) : R := f (x + 1) - 2 * f x + f (x - 1).

Lemma is_derive_shift (f : R -> R) (df c x : R) : is_derive f (x + c) df -> is_derive (fun y => f (y + c)) x df.
Proof.
  intros H. replace df with (scal 1 df) by (unfold scal; simpl; unfold mult; simpl; ring).
  apply (is_derive_comp f (fun y => y + c) x df 1); [exact H|].
  auto_derive; [exact I|ring].
Qed.
Lemma cont_shift f c x : continuity_pt f (x + c) -> continuity_pt (fun y => f (y + c)) x.
Proof.
  intros H. apply (continuity_pt_comp (fun y => y + c) f); [|exact H].
  apply derivable_continuous_pt. exists 1. apply is_derive_Reals. auto_derive; [exact I|ring].
Qed.

Lemma sd_pw b x : 1 < x -> (b <= 0 -> 0 <= sd (pw b) x) /\ (0 <= b <= 1 -> sd (pw b) x <= 0).
Proof.
  intros Hx.
  destruct (mvt_open (fun y => pw b (y + 1) - pw b y) (fun y => b * (pw (b - 1) (y + 1) - pw (b - 1) y)) (x - 1) x) as (c & Hc & E).
  - lra.
  - intros y Hy. replace (b * (pw (b - 1) (y + 1) - pw (b - 1) y)) with (minus (b * pw (b - 1) (y + 1)) (b * pw (b - 1) y))
      by (unfold minus, plus, opp; simpl; ring).
    apply (is_derive_minus (fun y => pw b (y + 1)) (pw b)); [apply is_derive_shift, d_pw; lra|apply d_pw; lra].
  - intros y Hy. apply continuity_pt_minus; [apply cont_shift, cont_pw_pos; lra|apply cont_pw_pos; lra].
  - replace (x - 1 + 1) with x in E by ring. unfold sd.
    assert (D : b <= 1 -> pw (b - 1) (c + 1) <= pw (b - 1) c) by (intros; apply pw_decr; lra).
    split; intros Hb; specialize (D ltac:(lra)); nra.
Qed.

(** ** The autocorrelation as a function of a real lag *)
Definition rr (a x : R) : R := 1 / 2 * sd (pw a) x.
Definition rr1 (a x : R) : R := 1 / 2 * (a * sd (pw (a - 1)) x).
Definition rr2 (a x : R) : R := 1 / 2 * (a * ((a - 1) * sd (pw (a - 1 - 1)) x)).

Lemma d_sd b x : 1 < x -> is_derive (sd (pw b)) x (b * sd (pw (b - 1)) x).
Proof.
  intros Hx. unfold sd.
  replace (b * (pw (b - 1) (x + 1) - 2 * pw (b - 1) x + pw (b - 1) (x - 1)))
    with (plus (minus (b * pw (b - 1) (x + 1)) (2 * (b * pw (b - 1) x))) (b * pw (b - 1) (x + - (1))))
    by (unfold minus, plus, opp; simpl; change (x + - (1)) with (x - 1); ring).
  apply (is_derive_plus (fun y => pw b (y + 1) - 2 * pw b y) (fun y => pw b (y - 1))).
  - apply (is_derive_minus (fun y => pw b (y + 1)) (fun y => 2 * pw b y)).
    + apply is_derive_shift, d_pw; lra.
    + apply (is_derive_scal (pw b)), d_pw; lra.
  - apply (is_derive_shift (pw b) _ (- (1))), d_pw; lra.
Qed.
Lemma d_rr a x : 1 < x -> is_derive (rr a) x (rr1 a x).
Proof. intros H. unfold rr, rr1. apply (is_derive_scal (sd (pw a))), d_sd, H. Qed.
Lemma d_rr1 a x : 1 < x -> is_derive (rr1 a) x (rr2 a x).
Proof. intros H. unfold rr1, rr2. apply (is_derive_scal (fun y => a * sd (pw (a - 1)) y)), (is_derive_scal (sd (pw (a - 1)))), d_sd, H. Qed.
Lemma cont_rr a x : 1 <= a -> 1 <= x -> continuity_pt (rr a) x.
Proof.
  intros Ha Hx. unfold rr, sd.
  apply (continuity_pt_scal (fun x => pw a (x + 1) - 2 * pw a x + pw a (x - 1))).
  apply continuity_pt_plus; [apply continuity_pt_minus|].
  - apply cont_shift, cont_pw; lra.
  - apply (continuity_pt_scal (pw a)), cont_pw; lra.
  - apply (cont_shift (pw a) (- (1))), cont_pw; lra.
Qed.

Lemma rr1_le a x : 1 <= a <= 2 -> 1 < x -> rr1 a x <= 0.
Proof. intros Ha Hx. unfold rr1. pose proof (proj2 (sd_pw (a - 1) x Hx) ltac:(lra)). nra. Qed.
Lemma rr2_ge a x : 1 <= a <= 2 -> 1 < x -> 0 <= rr2 a x.
Proof.
  intros Ha Hx. unfold rr2. pose proof (proj1 (sd_pw (a - 1 - 1) x Hx) ltac:(lra)).
  assert (0 <= (a - 1) * sd (pw (a - 1 - 1)) x) by (apply Rmult_le_pos; lra). nra.
Qed.
Lemma rr1_incr a x y : 1 <= a <= 2 -> 1 < x -> x < y -> rr1 a x <= rr1 a y.
Proof.
  intros Ha Hx Hy. destruct (mvt_open (rr1 a) (rr2 a) x y Hy) as (c & Hc & E).
  - intros z Hz. apply d_rr1. lra.
  - intros z Hz. apply derivable_continuous_pt. exists (rr2 a z). apply is_derive_Reals, d_rr1. lra.
  - pose proof (rr2_ge a c Ha ltac:(lra)). nra.
Qed.
Lemma rr_decr a x : 1 <= a <= 2 -> 1 <= x -> rr a (x + 1) <= rr a x.
Proof.
  intros Ha Hx. destruct (mvt_open (rr a) (rr1 a) x (x + 1) ltac:(lra)) as (c & Hc & E).
  - intros z Hz. apply d_rr. lra.
  - intros z Hz. apply cont_rr; lra.
  - pose proof (rr1_le a c Ha ltac:(lra)). lra.
Qed.
Lemma rr_convex a x : 1 <= a <= 2 -> 2 <= x -> 0 <= rr a (x + 1) - 2 * rr a x + rr a (x - 1).
Proof.
  intros Ha Hx.
  destruct (mvt_open (fun y => rr a (y + 1) - rr a y) (fun y => rr1 a (y + 1) - rr1 a y) (x - 1) x ltac:(lra)) as (c & Hc & E).
  - intros z Hz. apply (is_derive_minus (fun y => rr a (y + 1)) (rr a)); [apply is_derive_shift, d_rr; lra|apply d_rr; lra].
  - intros z Hz. apply continuity_pt_minus; [apply cont_shift, cont_rr; lra|apply cont_rr; lra].
  - replace (x - 1 + 1) with x in E by ring. pose proof (rr1_incr a c (c + 1) Ha ltac:(lra) ltac:(lra)). lra.
Qed.

(** ** The autocorrelation *)
Lemma pow2h_pw h x : h <> 0 -> 0 <= x -> pow2h h x = pw (2 * h) x.
Proof.
  intros Hh Hx. unfold pow2h, pw. destruct (Reqb_spec h 0); [contradiction|].
  destruct (Reqb_spec x 0) as [E|N]; destruct (Rlt_dec 0 x) as [P|P]; try reflexivity; lra.
Qed.
Lemma acf_rr h k : 0 < h -> acf h (S k) = rr (2 * h) (INR (S k)).
Proof.
  intros Hh. unfold acf, rr, sd. pose proof (pos_INR k). rewrite S_INR.
  rewrite !pow2h_pw by lra. reflexivity.
Qed.
Lemma acf_zero_h k : acf 0 (S k) = 0.
Proof. unfold acf, pow2h. destruct (Reqb_spec 0 0); [lra|lra]. Qed.

Lemma Rpower_2_bounds a : 0 <= a <= 1 -> 1 <= Rpower 2 a <= 2.
Proof.
  intros Ha. assert (0 < ln 2) by (rewrite <- ln_1; apply ln_increasing; lra).
  split.
  - rewrite <- (Rpower_O 2) at 1 by lra. apply Rle_Rpower; lra.
  - rewrite <- (Rpower_1 2) at 2 by lra. apply Rle_Rpower; lra.
Qed.

(** negative correlation below one half *)
Lemma acf_neg h k : 0 <= h <= 1 / 2 -> acf h (S k) <= 0.
Proof.
  intros Hh. destruct (Req_dec h 0) as [->|N]; [rewrite acf_zero_h; lra|].
  rewrite acf_rr by lra. unfold rr. destruct k as [|k].
  - simpl INR. unfold sd. replace (1 + 1) with 2 by ring. replace (1 - 1) with 0 by ring.
    rewrite (pw_pos _ 2), (pw_pos _ 1) by lra. unfold pw. destruct (Rlt_dec 0 0); [lra|].
    pose proof (Rpower_2_bounds (2 * h) ltac:(lra)). unfold Rpower at 2. rewrite ln_1, Rmult_0_r, exp_0. lra.
  - assert (H : 1 < INR (S (S k))) by (rewrite !S_INR; pose proof (pos_INR k); lra).
    pose proof (proj2 (sd_pw (2 * h) _ H) ltac:(lra)). lra.
Qed.

(** first differences and convexity above one half *)
Definition acf_d (h : R) (k : nat) : R := acf h k - acf h (S k).
Lemma acf_1 h : 0 < h -> acf h 1 = / 2 * Rpower 2 (2 * h) - 1.
Proof.
  intros Hh. rewrite acf_rr by exact Hh. unfold rr, sd. simpl INR. replace (1 + 1) with 2 by ring. replace (1 - 1) with 0 by ring.
  rewrite (pw_pos _ 2), (pw_pos _ 1) by lra. unfold pw. destruct (Rlt_dec 0 0); [lra|].
  unfold Rpower at 2. rewrite ln_1, Rmult_0_r, exp_0. lra.
Qed.
Lemma acf_2 h : 0 < h -> acf h 2 = / 2 * Rpower 3 (2 * h) - Rpower 2 (2 * h) + / 2.
Proof.
  intros Hh. rewrite acf_rr by exact Hh. unfold rr, sd. simpl INR. replace (1 + 1) with 2 by ring. replace (2 + 1) with 3 by ring. replace (2 - 1) with 1 by ring.
  rewrite (pw_pos _ 3), (pw_pos _ 2), (pw_pos _ 1) by lra.
  unfold Rpower at 3. rewrite ln_1, Rmult_0_r, exp_0. lra.
Qed.
Lemma ln_3_2 : 9 * ln 3 < 16 * ln 2.
Proof.
  replace (9 * ln 3) with (ln (3 ^ 9)) by (rewrite ln_pow by lra; simpl INR; ring).
  replace (16 * ln 2) with (ln (2 ^ 16)) by (rewrite ln_pow by lra; simpl INR; ring).
  apply ln_increasing; simpl; lra.
Qed.
Lemma convex_at_one a : 1 <= a < 2 -> 0 < / 2 * Rpower 3 a - 2 * Rpower 2 a + 7 / 2.
Proof.
  intros Ha.
  destruct (mvt_open (fun t => / 2 * Rpower 3 t - 2 * Rpower 2 t + 7 / 2)
    (fun t => / 2 * (Rpower 3 t * ln 3) - 2 * (Rpower 2 t * ln 2)) a 2 ltac:(lra)) as (c & Hc & E).
  1,2: assert (D : forall x, is_derive (fun t => / 2 * Rpower 3 t - 2 * Rpower 2 t + 7 / 2) x (/ 2 * (Rpower 3 x * ln 3) - 2 * (Rpower 2 x * ln 2)))
    by (intros x; unfold Rpower; auto_derive; [exact I|match goal with |- ?u = ?v => change (@eq R u v) end; ring]).
  - intros x _. apply D.
  - intros x _. apply derivable_continuous_pt. eexists. apply is_derive_Reals, D.
  - assert (L3 : 0 < ln 3) by (rewrite <- ln_1; apply ln_increasing; lra).
    assert (L2 : 0 < ln 2) by (rewrite <- ln_1; apply ln_increasing; lra).
    assert (E3 : Rpower 3 2 = 9) by (replace 2 with (INR 2) by (simpl; ring); rewrite Rpower_pow by lra; ring).
    assert (E2 : Rpower 2 2 = 4) by (replace 2 with (INR 2) at 2 by (simpl; ring); rewrite Rpower_pow by lra; ring).
    rewrite E3, E2 in E.
    assert (Q : Rpower 3 c <= 9 / 4 * Rpower 2 c).
    { replace 3 with (3 / 2 * 2) at 1 by field. rewrite <- (Rpower_mult_distr (3 / 2) 2 c) by lra.
      apply Rmult_le_compat_r; [left; apply exp_pos|].
      replace (9 / 4) with (Rpower (3 / 2) 2) by (replace 2 with (INR 2) at 2 by (simpl; ring); rewrite Rpower_pow by lra; simpl; field).
      apply Rle_Rpower; lra. }
    pose proof ln_3_2. assert (P2 : 0 < Rpower 2 c) by apply exp_pos.
    assert (/ 2 * (Rpower 3 c * ln 3) - 2 * (Rpower 2 c * ln 2) < 0).
    { assert (Rpower 3 c * ln 3 <= 9 / 4 * Rpower 2 c * ln 3) by (apply Rmult_le_compat_r; lra).
      assert (Rpower 2 c * (9 * ln 3) < Rpower 2 c * (16 * ln 2)) by (apply Rmult_lt_compat_l; lra). lra. }
    nra.
Qed.

Lemma acf_one k : acf 1 k = 1.
Proof.
  destruct k as [|k]; [reflexivity|]. rewrite acf_rr by lra. unfold rr, sd. rewrite S_INR. pose proof (pos_INR k) as P.
  assert (Q : forall x, 0 <= x -> pw (2 * 1) x = x * x).
  { intros x [Hx|<-].
    - rewrite pw_pos by exact Hx. replace (2 * 1) with (INR 2) by (simpl; ring). rewrite Rpower_pow by exact Hx. ring.
    - unfold pw. destruct (Rlt_dec 0 0); [lra|ring]. }
  rewrite !Q by lra. field.
Qed.

Lemma acf_d_convex h k : 1 / 2 <= h <= 1 -> 0 <= acf_d h k - acf_d h (S k).
Proof.
  intros Hh. unfold acf_d. destruct k as [|k].
  - rewrite acf_1, acf_2 by lra. change (acf h 0) with 1.
    destruct (Req_dec h 1) as [->|N].
    + pose proof (acf_1 1 ltac:(lra)) as E1. pose proof (acf_2 1 ltac:(lra)) as E2. rewrite acf_one in E1, E2. lra.
    + pose proof (convex_at_one (2 * h) ltac:(lra)). lra.
  - rewrite !acf_rr by lra. pose proof (rr_convex (2 * h) (INR (S (S k))) ltac:(lra)) as P.
    replace (INR (S k)) with (INR (S (S k)) - 1) by (rewrite (S_INR (S k)); ring).
    replace (INR (S (S (S k)))) with (INR (S (S k)) + 1) by (rewrite (S_INR (S (S k))); ring).
    assert (2 <= INR (S (S k))) by (rewrite !S_INR; pose proof (pos_INR k); lra). specialize (P H). lra.
Qed.
Lemma acf_d_0 h : 1 / 2 <= h < 1 -> 0 < acf_d h 0.
Proof.
  intros Hh. unfold acf_d. rewrite acf_1 by lra. change (acf h 0) with 1.
  assert (E : Rpower 2 (2 * h) < Rpower 2 2) by (apply Rpower_lt; lra).
  assert (E2 : Rpower 2 2 = 4) by (replace 2 with (INR 2) at 2 by (simpl; ring); rewrite Rpower_pow by lra; ring). lra.
Qed.
Lemma acf_d_nonneg h k : 1 / 2 <= h <= 1 -> 0 <= acf_d h k.
Proof.
  intros Hh. destruct (Req_dec h 1) as [->|N]; [unfold acf_d; rewrite !acf_one; lra|].
  destruct k as [|k]; [left; apply acf_d_0; lra|].
  unfold acf_d. rewrite !acf_rr by lra. pose proof (rr_decr (2 * h) (INR (S k)) ltac:(lra)) as P.
  replace (INR (S (S k))) with (INR (S k) + 1) by (rewrite (S_INR (S k)); ring).
  assert (1 <= INR (S k)) by (rewrite !S_INR; pose proof (pos_INR k); lra). specialize (P H). lra.
Qed.
Lemma acf_d_strict h : 1 / 2 <= h < 1 -> 0 < acf_d h 0 - acf_d h 1.
Proof.
  intros Hh. unfold acf_d. rewrite acf_1, acf_2 by lra. change (acf h 0) with 1.
  pose proof (convex_at_one (2 * h) ltac:(lra)). lra.
Qed.

(** the sum of the whole circulant row *)
Lemma acf_sum h n : 0 < h -> 1 + 2 * bs n (fun k => acf h (S k)) = pow2h h (INR n + 1) - pow2h h (INR n).
Proof.
  intros Hh. induction n as [|n IH].
  - simpl. replace (0 + 1) with 1 by ring. rewrite !pow2h_pw by lra. rewrite (pw_pos _ 1) by lra. unfold pw. destruct (Rlt_dec 0 0); [lra|].
    assert (E : Rpower 1 (2 * h) = 1) by (unfold Rpower; rewrite ln_1, Rmult_0_r; apply exp_0). rewrite E. ring.
  - cbn [bs]. rewrite Rmult_plus_distr_l, <- Rplus_assoc, IH. unfold acf. rewrite S_INR.
    replace (INR n + 1 - 1) with (INR n) by ring. field.
Qed.
Lemma pw_lt b x y : 0 < b -> 0 <= x < y -> pw b x < pw b y.
Proof.
  intros Hb [[Hx|<-] Hy].
  - rewrite !pw_pos by lra. apply exp_increasing, Rmult_lt_compat_l; [lra|apply ln_increasing; lra].
  - rewrite (pw_pos _ y) by lra. unfold pw. destruct (Rlt_dec 0 0); [lra|apply exp_pos].
Qed.
Lemma acf_row_sum h n : (0 < n)%nat -> 0 <= h -> 0 < 1 + 2 * bs (n - 1) (fun k => acf h (S k)) + acf h n.
Proof.
  intros Hn Hh. destruct n as [|n]; [lia|]. replace (S n - 1)%nat with n by lia.
  destruct (Req_dec h 0) as [->|N].
  - rewrite acf_zero_h, (bs_ext n _ (fun _ => 0)) by (intros; apply acf_zero_h). rewrite bs_zero. lra.
  - rewrite acf_sum by lra. unfold acf. rewrite S_INR. pose proof (pos_INR n). rewrite !pow2h_pw by lra.
    replace (INR n + 1 - 1) with (INR n) by ring.
    pose proof (pw_lt (2 * h) (INR n) (INR n + 1 + 1) ltac:(lra) ltac:(lra)). lra.
Qed.

(** ** Kernels *)
Definition dirichlet (t : R) (m : nat) : R := 1 + 2 * bs m (fun k => cos (INR (S k) * t)).
Definition fejer (t : R) (m : nat) : R := bs m (dirichlet t).
Lemma dirichlet_sin t m : dirichlet t m * sin (t / 2) = sin (INR m * t + t / 2).
Proof.
  unfold dirichlet. induction m as [|m IH].
  - simpl. rewrite Rmult_0_l, Rplus_0_l. ring.
  - cbn [bs]. rewrite Rmult_plus_distr_l, <- Rplus_assoc, Rmult_plus_distr_r, IH.
    replace (INR m * t + t / 2) with (INR (S m) * t - t / 2) by (rewrite S_INR; field).
    rewrite sin_minus, sin_plus. ring.
Qed.
Lemma fejer_sin t m : fejer t m * (sin (t / 2) * sin (t / 2)) = / 2 * (1 - cos (INR m * t)).
Proof.
  unfold fejer. induction m as [|m IH].
  - simpl. replace (0 * t) with 0 by ring. rewrite cos_0. ring.
  - cbn [bs]. rewrite Rmult_plus_distr_r, IH.
    replace (dirichlet t m * (sin (t / 2) * sin (t / 2))) with (sin (INR m * t + t / 2) * sin (t / 2)) by (rewrite <- dirichlet_sin; ring).
    replace (INR (S m) * t) with ((INR m * t + t / 2) + t / 2) by (rewrite S_INR; field).
    replace (cos (INR m * t)) with (cos ((INR m * t + t / 2) - t / 2)) by (f_equal; field).
    generalize (INR m * t + t / 2) (t / 2). intros x d. rewrite cos_plus, cos_minus. field.
Qed.
Lemma fejer_nonneg t m : sin (t / 2) <> 0 -> 0 <= fejer t m.
Proof.
  intros H. pose proof (fejer_sin t m) as E. pose proof (COS_bound (INR m * t)).
  assert (0 < sin (t / 2) * sin (t / 2)) by nra. nra.
Qed.

(** summation by parts, twice *)
Lemma parts1 (r c : nat -> R) D n : (forall m, D m = 1 + 2 * bs m (fun k => c (S k))) ->
  r O + 2 * bs n (fun k => r (S k) * c (S k)) = bs n (fun k => (r k - r (S k)) * D k) + r n * D n.
Proof.
  intros HD. induction n as [|n IH].
  - rewrite HD. simpl. ring.
  - cbn [bs]. rewrite Rmult_plus_distr_l, <- Rplus_assoc, IH. rewrite (HD (S n)), (HD n). cbn [bs]. ring.
Qed.
Lemma parts2 (d D : nat -> R) n : bs (S n) (fun k => d k * D k) = bs n (fun k => (d k - d (S k)) * bs (S k) D) + d n * bs (S n) D.
Proof.
  induction n as [|n IH].
  - simpl. ring.
  - cbn [bs] in IH |- *. rewrite IH. ring.
Qed.
