(** C91: the finite-difference prices converge to the closed form, up to an explicit error of the boundary conditions. *)
From Coq Require Import ZArith Reals List Bool Lra Lia Psatz.
From Coquelicot Require Import Coquelicot.
From Verif Require Import Res DateModel InterpModel RList PayoffModel SpecialFns RGen DistModel DistGauss BsmModel BsmProofs BsmProps SimMoments GaussExp RiskNeutral FdModel FdProofs FdProps FdLimit FdConverge.
Import ListNotations.
Open Scope R_scope.

(** ** The computed price lies below a super-solution *)
Lemma dx_times m : fd_valid m -> 0 < dx m /\ INR (f_np m) * dx m = x_max m - x_min m.
Proof.
  intros (_ & _ & _ & V & T & _ & N). assert (P : 0 < INR (f_np m)) by (apply (lt_INR 0); lia). pose proof (sqrt_lt_R0 _ T). unfold dx. split; [|field; lra]. apply Rdiv_lt_0_compat; [|exact P]. unfold x_max, x_min. assert (0 < f_v m * sqrt (f_T m)) by (apply Rmult_lt_0_compat; assumption). lra.
Qed.
Lemma dt_times m : fd_valid m -> 0 < dt m /\ INR (f_nt m) * dt m = f_T m.
Proof.
  intros (_ & _ & _ & V & T & N & _). assert (P : 0 < INR (f_nt m)) by (apply (lt_INR 0); lia). unfold dt. split; [apply Rdiv_lt_0_compat; assumption|field; lra].
Qed.
Lemma node_range m i : fd_valid m -> (i <= f_np m)%nat -> x_min m <= node m i <= x_max m.
Proof.
  intros V Hi. destruct (dx_times m V) as [D E]. unfold node. apply le_INR in Hi. pose proof (pos_INR i) as P. assert (0 <= INR i * dx m) by (apply Rmult_le_pos; lra). assert (INR i * dx m <= INR (f_np m) * dx m) by (apply Rmult_le_compat_r; lra). lra.
Qed.
Lemma node_mid m i : fd_valid m -> i = mid1 m \/ i = mid2 m -> Rabs (node m (S i) - ln (f_s m)) <= dx m / 2.
Proof.
  intros V Hi. destruct (dx_times m V) as [D E]. assert (N3 : (3 <= f_np m)%nat) by (destruct V as (_ & _ & _ & _ & _ & _ & V); exact V).
  assert (C : exists z : R, 2 * INR (S i) = INR (f_np m) + z /\ -1 <= z <= 1).
  { unfold mid2, mid1 in Hi. pose proof (Nat.div_mod (f_np m) 2 ltac:(lia)) as DM. pose proof (Nat.mod_upper_bound (f_np m) 2 ltac:(lia)) as MB. set (q := (f_np m / 2)%nat) in *. set (e := (f_np m mod 2)%nat) in *.
    destruct (Nat.eqb_spec e 0) as [E0|E0].
    - assert (I : i = (q - 1)%nat). { assert (A : ((f_np m - 1) / 2 = q - 1)%nat) by (symmetry; apply (Nat.div_unique _ _ _ 1); lia). destruct Hi; lia. }
      exists 0. split; [|lra]. replace (f_np m) with (2 * S i)%nat by lia. rewrite mult_INR. change (INR 2) with 2. lra.
    - assert (A : ((f_np m - 1) / 2 = q)%nat) by (symmetry; apply (Nat.div_unique _ _ _ 0); lia). assert (B : ((f_np m - 3) / 2 = q - 1)%nat) by (symmetry; apply (Nat.div_unique _ _ _ 0); lia).
      destruct Hi as [Hi|Hi]; [exists 1|exists (-1)]; (split; [|lra]).
      + replace (f_np m) with (2 * i + 1)%nat by lia. rewrite S_INR, plus_INR, mult_INR. change (INR 2) with 2. change (INR 1) with 1. lra.
      + replace (f_np m) with (2 * S i + 1)%nat by lia. rewrite plus_INR, mult_INR. change (INR 2) with 2. change (INR 1) with 1. lra. }
  destruct C as (z & C & Z). unfold node. replace (x_min m + INR (S i) * dx m - ln (f_s m)) with (z * (dx m / 2)).
  - rewrite Rabs_mult, (Rabs_right (dx m / 2)) by lra. rewrite <- (Rmult_1_l (dx m / 2)) at 2. apply Rmult_le_compat_r; [lra|]. apply Rabs_le. exact Z.
  - assert (XM : x_min m + x_max m = 2 * ln (f_s m)) by (unfold x_min, x_max; ring). replace (INR (S i) * dx m) with ((INR (f_np m) + z) / 2 * dx m) by (rewrite <- C; field). lra.
Qed.
Definition ax (m : fd) : R := / 2 * f_v m ^ 2.
Definition bx (m : fd) : R := f_r m - / 2 * f_v m ^ 2.
Lemma sten_Lh m f i : fd_valid m -> (1 <= i)%nat -> sten m (fun i => f (node m i)) i = dt m * Lh (ax m) (bx m) (dx m) f (node m i).
Proof.
  intros V Hi. destruct (dx_times m V) as [D _]. unfold sten, Lh, cx, cy, ax, bx.
  assert (A : node m (i - 1) = node m i - dx m) by (unfold node; rewrite minus_INR by lia; change (INR 1) with 1; ring). assert (B : node m (S i) = node m i + dx m) by (unfold node; rewrite S_INR; ring). rewrite A, B. field. lra.
Qed.
(** the error of one unit of time and of the central nodes *)
Definition kap (m : fd) : R := ax m / 12 + Rabs (bx m) / 6.
Definition grid_err (m : fd) : R := f_T m * (dt m + kap m * dx m ^ 2) + dx m / 2.
Lemma kap_pos m : 0 <= kap m.
Proof. unfold kap, ax. pose proof (pow2_ge_0 (f_v m)). pose proof (Rabs_pos (bx m)). lra. Qed.
Theorem price_below : forall k m g F M eta, fd_valid m -> stable k m -> early_exercise m = false -> 0 <= eta ->
  regular (ax m) (bx m) 0 (f_T m) (x_min m) (x_max m) M F ->
  (forall x, x_min m <= x <= x_max m -> g * payoff m (exp x) <= F 0 x + eta) ->
  (forall t t', (t <= f_nt m)%nat -> (1 <= t' <= f_nt m)%nat -> (t <= t' <= S t)%nat -> g * edge_lo m t' <= F (INR t * dt m) (x_min m) + eta + INR t * dt m * M * dt m /\ g * edge_hi m t' <= F (INR t * dt m) (x_max m) + eta + INR t * dt m * M * dt m) ->
  exists p, price_of k m = Ret p /\ g * p <= exp (- f_r m * f_T m) * (F (f_T m) (ln (f_s m)) + eta + M * grid_err m).
Proof.
  intros k m g F M eta V S EE H0 RG P0 PE. destruct (dx_times m V) as [DX NX]. destruct (dt_times m V) as [DT NT]. pose proof (kap_pos m) as KP.
  assert (N3 : (3 <= f_np m)%nat) by (destruct V as (_ & _ & _ & _ & _ & _ & V'); exact V').
  assert (TT : 0 < f_T m) by (destruct V as (_ & _ & _ & _ & V' & _); exact V'). assert (XX : x_min m <= ln (f_s m) <= x_max m) by (assert (0 < f_v m * sqrt (f_T m)) by (apply Rmult_lt_0_compat; [destruct V as (_ & _ & _ & V' & _); exact V'|apply sqrt_lt_R0, TT]); unfold x_min, x_max; lra).
  assert (M0 : 0 <= M). { destruct RG as (F1 & F2 & F3 & F4 & P & Q & H). destruct (H 0 (ln (f_s m))) as (_ & (B & _) & _); [lra|lra|]. pose proof (Rabs_pos (F1 0 (ln (f_s m)))). lra. }
  set (er := M * (dt m + kap m * dx m ^ 2)). assert (ER : 0 <= er) by (unfold er; apply Rmult_le_pos; [exact M0|]; assert (0 <= kap m * dx m ^ 2) by (apply Rmult_le_pos; [exact KP|apply pow2_ge_0]); lra).
  set (U := fun (t i : nat) => F (INR t * dt m) (node m i) + (eta + INR t * dt m * er)).
  assert (AX : 0 <= ax m) by (unfold ax; pose proof (pow2_ge_0 (f_v m)); lra).
  assert (TR : forall t, (t <= f_nt m)%nat -> 0 <= INR t * dt m <= f_T m).
  { intros t Ht. apply le_INR in Ht. pose proof (pos_INR t). split; [apply Rmult_le_pos; lra|]. rewrite <- NT. apply Rmult_le_compat_r; lra. }
  assert (SU : forall t i, (1 <= i)%nat -> sten m (U t) i = dt m * Lh (ax m) (bx m) (dx m) (F (INR t * dt m)) (node m i)).
  { intros t i Hi. rewrite <- (sten_Lh m (F (INR t * dt m)) i V Hi). unfold U, sten. ring. }
  destruct (super_bounds k m g U V S EE) as (w & E & L & H).
  - split; [|split].
    + intros i Hi. unfold U. simpl (INR 0). rewrite !Rmult_0_l, Rplus_0_r. apply P0, node_range; [exact V|lia].
    + intros t i Ht Hi. rewrite !SU by lia. pose proof (theta_bounds k) as TH.
      pose proof (TR t ltac:(lia)) as T1. pose proof (TR (Datatypes.S t) ltac:(lia)) as T2. rewrite S_INR in T2.
      pose proof (node_range m (i - 1) V ltac:(lia)) as X1. pose proof (node_range m (Datatypes.S i) V ltac:(lia)) as X2.
      assert (A : node m (i - 1) = node m i - dx m) by (unfold node; rewrite minus_INR by lia; change (INR 1) with 1; ring). assert (B : node m (Datatypes.S i) = node m i + dx m) by (unfold node; rewrite S_INR; ring). rewrite A in X1. rewrite B in X2.
      pose proof (consistent (ax m) (bx m) 0 (f_T m) (x_min m) (x_max m) M F (INR t * dt m) (dt m) (node m i) (dx m) (theta k) RG AX DT DX TH ltac:(lra) ltac:(lra) ltac:(lra) ltac:(lra)) as C.
      unfold U. rewrite S_INR. replace ((INR t + 1) * dt m) with (INR t * dt m + dt m) by ring. fold (kap m) in C. fold er in C. lra.
    + intros t t' Ht Ht' C. destruct (PE t t' Ht Ht' C) as [PL PH]. unfold U. assert (N0 : node m 0 = x_min m) by (unfold node; simpl; ring). assert (N1 : node m (f_np m) = x_max m) by (unfold node; lra). rewrite N0, N1. pose proof (TR t Ht) as T1.
      assert (INR t * dt m * M * dt m <= INR t * dt m * er). { rewrite Rmult_assoc. apply Rmult_le_compat_l; [lra|]. unfold er. apply Rmult_le_compat_l; [exact M0|]. assert (0 <= kap m * dx m ^ 2) by (apply Rmult_le_pos; [exact KP|apply pow2_ge_0]). lra. }
      lra.
  - rewrite price_of_eq, E, finish_spec by assumption. eexists. split; [reflexivity|].
    assert (MID : forall i, i = mid1 m \/ i = mid2 m -> g * nth i w 0 <= F (f_T m) (ln (f_s m)) + eta + M * grid_err m).
    { intros i Hi. assert (Bi : (i < f_np m - 1)%nat) by (destruct (mids m V); destruct Hi; lia). specialize (H i Bi). unfold U in H. rewrite NT in H. pose proof (node_mid m i V Hi) as NM. pose proof (node_range m (Datatypes.S i) V ltac:(lia)) as NR.
      assert (LIP : F (f_T m) (node m (Datatypes.S i)) - F (f_T m) (ln (f_s m)) <= M * (dx m / 2)).
      { destruct RG as (F1 & F2 & F3 & F4 & P & Q & HH). destruct (MVT_gen (F (f_T m)) (ln (f_s m)) (node m (Datatypes.S i)) (F1 (f_T m))) as (c & Hc & Ec).
        - intros x Hx. apply (HH (f_T m) x); [lra|]. destruct Hx as [Hx1 Hx2]. unfold Rmin, Rmax in Hx1, Hx2. destruct (Rle_dec (ln (f_s m)) (node m (Datatypes.S i))); lra.
        - intros x Hx. apply continuity_pt_filterlim. assert (Hx' : x_min m <= x <= x_max m) by (unfold Rmin, Rmax in Hx; destruct (Rle_dec (ln (f_s m)) (node m (Datatypes.S i))); lra).
          destruct (HH (f_T m) x ltac:(lra) Hx') as ((D & _) & _). apply (ex_derive_continuous (K:=R_AbsRing) (V:=R_NormedModule) (F (f_T m))). eexists. exact D.
        - rewrite Ec. assert (Hc' : x_min m <= c <= x_max m) by (unfold Rmin, Rmax in Hc; destruct (Rle_dec (ln (f_s m)) (node m (Datatypes.S i))); lra).
          destruct (HH (f_T m) c ltac:(lra) Hc') as (_ & (B & _) & _). apply Rle_trans with (1 := Rle_abs _). rewrite Rabs_mult. apply Rmult_le_compat; try apply Rabs_pos; assumption. }
      unfold grid_err. unfold er in H. lra. }
    pose proof (MID _ (or_introl eq_refl)). pose proof (MID _ (or_intror eq_refl)).
    replace (g * (exp (- f_r m * f_T m) * ((nth (mid1 m) w 0 + nth (mid2 m) w 0) / 2))) with (exp (- f_r m * f_T m) * ((g * nth (mid1 m) w 0 + g * nth (mid2 m) w 0) / 2)) by field.
    apply Rmult_le_compat_l; [left; apply exp_pos|]. lra.
Qed.

(** ** Size and initial layer of the undiscounted price *)
Lemma value_E tf k r v t x : 0 < k -> 0 < v -> 0 < t -> std_E (fun z => vanilla_payoff tf k (lognormal_at (exp x) r v t z)) (value tf k r v t x).
Proof.
  intros K V T. destruct (bsm_risk_neutral (exp x) k t 0 r v tf) as (H & _); [split; [apply exp_pos|split; [exact K|split; assumption]]|]. refine (std_ext _ _ _ _ H). intro z. replace (- 0 * t) with 0 by ring. rewrite exp_0. ring.
Qed.
Lemma value_bounds tf k r v t x : 0 < k -> 0 < v -> 0 < t -> 0 <= value tf k r v t x <= match tf with Call => exp (x + r * t) | Put => k end.
Proof.
  intros K V T. pose proof (value_E tf k r v t x K V T) as H. assert (P : forall z, 0 < lognormal_at (exp x) r v t z) by (intro z; unfold lognormal_at; apply Rmult_lt_0_compat; apply exp_pos). split.
  - refine (std_le _ _ _ _ _ (std_const 0) H). intro z. unfold vanilla_payoff. destruct tf; apply Rmax_r.
  - destruct tf.
    + rewrite exp_plus. refine (std_le _ _ _ _ _ H (std_lognormal (exp x) r v t T)). intro z. specialize (P z). unfold vanilla_payoff. apply Rmax_lub; lra.
    + refine (std_le _ _ _ _ _ H (std_const k)). intro z. specialize (P z). unfold vanilla_payoff. apply Rmax_lub; lra.
Qed.
Lemma payoff_lip tf k u v : Rabs (vanilla_payoff tf k u - vanilla_payoff tf k v) <= Rabs (u - v).
Proof. unfold vanilla_payoff, Rmax, Rabs. destruct tf; repeat match goal with |- context [Rle_dec ?a ?b] => destruct (Rle_dec a b) | |- context [Rcase_abs ?a] => destruct (Rcase_abs a) end; lra. Qed.
Lemma young y d : 0 < d -> Rabs y <= (d + y ^ 2 * / d) / 2.
Proof.
  intros D. assert (0 <= (Rabs y - d) ^ 2 * / d) by (apply Rmult_le_pos; [apply pow2_ge_0|left; apply Rinv_0_lt_compat, D]). replace ((Rabs y - d) ^ 2 * / d) with (y ^ 2 * / d - 2 * Rabs y + d) in H; [lra|]. rewrite <- (pow2_abs y). field. lra.
Qed.
Definition msq (r v t : R) : R := exp ((2 * r + v ^ 2) * t) - 2 * exp (r * t) + 1.
Lemma std_sq s r v t : 0 < t -> std_E (fun z => (lognormal_at s r v t z - s) ^ 2) (s ^ 2 * msq r v t).
Proof.
  intro T. pose proof (std_lin _ _ 1 (- 2 * s) _ _ (std_lognormal (s ^ 2) (2 * r + v ^ 2) (2 * v) t T) (std_lognormal s r v t T)) as A.
    pose proof (std_lin _ _ 1 (s ^ 2) _ _ A (std_const 1)) as B. replace (s ^ 2 * msq r v t) with (1 * (1 * (s ^ 2 * exp ((2 * r + v ^ 2) * t)) + - 2 * s * (s * exp (r * t))) + s ^ 2 * 1) by (unfold msq; ring).
    refine (std_ext _ _ _ _ B). intro z. cbv beta. unfold lognormal_at. set (E := (r - v ^ 2 / 2) * t + v * sqrt t * z). replace ((2 * r + v ^ 2 - (2 * v) ^ 2 / 2) * t + 2 * v * sqrt t * z) with (E + E) by (unfold E; field). rewrite exp_plus. ring.
Qed.
Lemma value_initial tf k r v t x d : 0 < k -> 0 < v -> 0 < t -> 0 < d -> Rabs (value tf k r v t x - vanilla_payoff tf k (exp x)) <= (d + exp x ^ 2 * msq r v t * / d) / 2.
Proof.
  intros K V T D. pose proof (value_E tf k r v t x K V T) as H. set (s := exp x) in *. set (L := lognormal_at s r v t) in *.
  pose proof (std_sq s r v t T) as SQ. fold L in SQ.
  pose proof (std_lin _ _ (/ d / 2) (d / 2) _ _ SQ (std_const 1)) as UB. cbv beta in UB.
  pose proof (std_lin _ _ 1 (- vanilla_payoff tf k s) _ _ H (std_const 1)) as DF. cbv beta in DF.
  assert (Y : forall z, Rabs (vanilla_payoff tf k (L z) - vanilla_payoff tf k s) <= / d / 2 * (L z - s) ^ 2 + d / 2 * 1).
  { intro z. apply Rle_trans with (1 := payoff_lip tf k (L z) s). apply Rle_trans with (1 := young _ d D). lra. }
  apply Rabs_le. split.
  - pose proof (std_lin _ _ (-1) 0 _ _ UB (std_const 1)) as LB. cbv beta in LB. assert (G : -1 * (/ d / 2 * (s ^ 2 * msq r v t) + d / 2 * 1) + 0 * 1 <= 1 * value tf k r v t x + - vanilla_payoff tf k s * 1).
    { refine (std_le _ _ _ _ _ LB DF). intro z. specialize (Y z). apply Rabs_le_between in Y. lra. } lra.
  - assert (G : 1 * value tf k r v t x + - vanilla_payoff tf k s * 1 <= / d / 2 * (s ^ 2 * msq r v t) + d / 2 * 1).
    { refine (std_le _ _ _ _ _ DF UB). intro z. specialize (Y z). apply Rabs_le_between in Y. lra. } lra.
Qed.

(** ** The time shift that smooths the payoff *)
Lemma ev_lt (f : R -> R) c : ex_derive f 0 -> f 0 < c -> locally 0 (fun e => f e < c).
Proof.
  intros D L. pose proof (ex_derive_continuous (K:=R_AbsRing) (V:=R_NormedModule) f 0 D) as H. apply (H (fun y => y < c)). apply (open_lt c). exact L.
Qed.
Lemma value_shift k r v T tf x0 d : 0 < k -> 0 < v -> 0 < T -> 0 < d -> locally 0 (fun e => Rabs (value tf k r v (T + e) x0 - value tf k r v T x0) < d).
Proof.
  intros K V T0 D0.
  assert (DV : ex_derive (fun e => value tf k r v (T + e) x0) 0).
  { destruct (value_exact k r v K V tf T T x0 x0 T0) as (M & F1 & F2 & F3 & F4 & Q & H). destruct (H T x0 ltac:(lra) ltac:(lra)) as (_ & _ & H' & _). eexists. apply (d_shift (fun t => value tf k r v t x0)). rewrite Rplus_0_r. exact H'. }
  assert (A4 : locally 0 (fun e => value tf k r v (T + e) x0 < value tf k r v T x0 + d)) by (apply ev_lt; [exact DV|rewrite Rplus_0_r; lra]).
  assert (A5 : locally 0 (fun e => - value tf k r v (T + e) x0 < - value tf k r v T x0 + d)) by (apply (ev_lt (fun e => - value tf k r v (T + e) x0)); [apply (ex_derive_opp (fun e => value tf k r v (T + e) x0) 0 DV)|rewrite Rplus_0_r; lra]).
  refine (filter_imp _ _ _ (filter_and _ _ A4 A5)). intros e [H4 H5]. apply Rabs_def1; lra.
Qed.
Lemma msq_shift r v xh d : 0 < d -> locally 0 (fun e => exp xh ^ 2 * msq r v e < d ^ 2).
Proof. intro D0. apply ev_lt; [unfold msq; auto_derive; exact I|]. unfold msq. rewrite !Rmult_0_r, exp_0. replace (exp xh ^ 2 * (1 - 2 * 1 + 1)) with 0 by ring. apply pow_lt, D0. Qed.
Lemma locally_pos (P : R -> Prop) : locally 0 P -> exists e, 0 < e /\ P e.
Proof.
  intros (q & H). pose proof (cond_pos q) as Q. exists (q / 2). split; [lra|]. apply H. unfold ball; simpl; unfold AbsRing_ball, abs, minus, plus, opp; simpl. rewrite Ropp_0, Rplus_0_r, Rabs_right; lra.
Qed.
Lemma shift_exists k r v T tf x0 xh d : 0 < k -> 0 < r -> 0 < v -> 0 < T -> 0 < d ->
  exists e, 0 < e /\ exp xh ^ 2 * msq r v e < d ^ 2 /\ exp (r * e) < 1 + exp (- r * T) /\ r * e < 10 * v * sqrt T /\ Rabs (value tf k r v (T + e) x0 - value tf k r v T x0) < d.
Proof.
  intros K R0 V T0 D0. pose proof (sqrt_lt_R0 T T0) as ST.
  assert (A2 : locally 0 (fun e => exp (r * e) < 1 + exp (- r * T))) by (apply ev_lt; [auto_derive; exact I|rewrite Rmult_0_r, exp_0; pose proof (exp_pos (- r * T)); lra]).
  assert (A3 : locally 0 (fun e => r * e < 10 * v * sqrt T)) by (apply ev_lt; [auto_derive; exact I|rewrite Rmult_0_r; repeat apply Rmult_lt_0_compat; lra]).
  apply locally_pos. exact (filter_and _ _ (msq_shift r v xh d D0) (filter_and _ _ A2 (filter_and _ _ A3 (value_shift k r v T tf x0 d K V T0 D0)))).
Qed.
(** the layer is small for every price of the grid *)
Lemma layer tf k r v e x xh d : 0 < k -> 0 < r -> 0 < v -> 0 < e -> 0 < d -> x <= xh -> exp xh ^ 2 * msq r v e < d ^ 2 -> Rabs (vanilla_payoff tf k (exp x) - value tf k r v e x) <= d.
Proof.
  intros K0 R0 V0 E0 D0 X E1. pose proof (value_initial tf k r v e x d K0 V0 E0 D0) as VI. rewrite Rabs_minus_sym. assert (Q : exp x ^ 2 * msq r v e * / d <= d); [|lra].
  assert (MS : 0 <= msq r v e).
  { unfold msq. assert (0 <= (exp (r * e) - 1) ^ 2) by apply pow2_ge_0. assert (exp (r * e) * exp (r * e) <= exp ((2 * r + v ^ 2) * e)) by (rewrite <- exp_plus; apply exp_le; assert (0 <= v ^ 2 * e) by (apply Rmult_le_pos; [apply pow2_ge_0|lra]); lra). lra. }
  apply Rmult_le_reg_r with d; [exact D0|]. rewrite Rmult_assoc, Rinv_l, Rmult_1_r by lra. apply Rle_trans with (exp xh ^ 2 * msq r v e); [|replace (d * d) with (d ^ 2) by ring; lra]. apply Rmult_le_compat_r; [exact MS|]. apply pow_incr. split; [left; apply exp_pos|apply exp_le; lra].
Qed.

(** ** One side of the error bound *)
Definition cap (s k r v T : R) : R := k + s * exp (5 * v * sqrt T + r * T).
Definition barrier_error (r v T : R) : R := 2 * exp (- (25 / 2) + 5 * Rabs (r - / 2 * v ^ 2) * sqrt T / v).
Section OneSide.
Context (s k r v T : R) (tf : type_flag) (S0 : 0 < s) (K0 : 0 < k) (R0 : 0 < r) (V0 : 0 < v) (T0 : 0 < T).
Let x0 := ln s.
Let xl := ln s - 5 * v * sqrt T.
Let xh := ln s + 5 * v * sqrt T.
Let D := cap s k r v T.
Lemma D_eq : D = k + exp (xh + r * T).
Proof. unfold D, cap, xh. rewrite <- (exp_ln s S0) at 1. rewrite <- exp_plus. f_equal. f_equal. ring. Qed.
Lemma edges_close m e t t' : f_s m = s -> f_k m = k -> f_r m = r -> f_v m = v -> f_T m = T -> f_tf m = tf -> fd_valid m -> 0 < e -> exp (r * e) < 1 + exp (- r * T) -> r * e < 10 * v * sqrt T -> 0 <= t <= T ->
  (1 <= t' <= f_nt m)%nat -> Rabs (edge_lo m t' - value tf k r v (t + e) xl) <= D /\ Rabs (edge_hi m t' - value tf k r v (t + e) xh) <= D.
Proof.
  intros Es Ek Er Ev ET Ef VV E0 E1 E2 Ht Ht'. rewrite D_eq. unfold edge_lo, edge_hi. rewrite Ef. unfold put_boundary, call_boundary. rewrite Ek, Er.
  assert (XL : x_min m = xl) by (unfold x_min, xl; rewrite Es, Ev, ET; reflexivity). assert (XH : x_max m = xh) by (unfold x_max, xh; rewrite Es, Ev, ET; reflexivity). rewrite XL, XH.
  assert (SQ : 0 < v * sqrt T) by (apply Rmult_lt_0_compat; [exact V0|apply sqrt_lt_R0, T0]). assert (LH : xl <= xh) by (unfold xl, xh; lra).
  assert (RT : 0 < r * T) by (apply Rmult_lt_0_compat; assumption). assert (RTT : r * t <= r * T) by (apply Rmult_le_compat_l; lra). assert (RE : 0 < r * e) by (apply Rmult_lt_0_compat; assumption). assert (RT0 : 0 <= r * t) by (apply Rmult_le_pos; lra).
  assert (DQ : 0 < exp (- r * (INR t' * dt m)) <= 1).
  { split; [apply exp_pos|]. rewrite <- exp_0. apply exp_le. destruct (dt_times m VV) as [DT _]. assert (0 <= r * (INR t' * dt m)) by (apply Rmult_le_pos; [lra|apply Rmult_le_pos; [apply pos_INR|lra]]). lra. }
  set (q := exp (- r * (INR t' * dt m))) in *. assert (KQ : 0 < k * q <= k) by (split; [apply Rmult_lt_0_compat; lra|rewrite <- (Rmult_1_r k) at 2; apply Rmult_le_compat_l; lra]).
  pose proof (value_bounds tf k r v (t + e) xl K0 V0 ltac:(lra)) as BL. pose proof (value_bounds tf k r v (t + e) xh K0 V0 ltac:(lra)) as BH.
  pose proof (exp_pos xl) as PL. assert (PLH : exp xl <= exp (xh + r * T)) by (apply exp_le; lra). assert (PHH : exp xh <= exp (xh + r * T)) by (apply exp_le; lra). pose proof (exp_pos xh) as PH.
  destruct tf; split; apply Rabs_le.
  - assert (exp (xl + r * (t + e)) <= exp (xh + r * T)) by (apply exp_le; unfold xl, xh in *; lra). lra.
  - assert (U : exp (xh + r * (t + e)) <= exp xh + exp (xh + r * T)).
    { apply Rle_trans with (exp (xh + r * T + r * e)); [apply exp_le; lra|]. rewrite (exp_plus (xh + r * T)). apply Rle_trans with (exp (xh + r * T) * (1 + exp (- r * T))); [apply Rmult_le_compat_l; [left; apply exp_pos|lra]|]. rewrite Rmult_plus_distr_l, <- exp_plus. replace (xh + r * T + - r * T) with xh by ring. lra. }
    lra.
  - lra.
  - lra.
Qed.
Lemma one_side g d : g = 1 \/ g = -1 -> 0 < d -> exists M, 0 <= M /\ forall sch nt np ex, let m := Fd s k r v T nt np tf ex in fd_valid m -> stable sch m -> early_exercise m = false ->
  exists p, price_of sch m = Ret p /\ g * p <= exp (- r * T) * (g * value tf k r v T x0 + d + (D * barrier_error r v T + d) + M * grid_err m).
Proof.
  intros G D0. destruct (shift_exists k r v T tf x0 xh d K0 R0 V0 T0 D0) as (e & E0 & E1 & E2 & E3 & E4).
  assert (SQ : 0 < v * sqrt T) by (apply Rmult_lt_0_compat; [exact V0|apply sqrt_lt_R0, T0]). pose proof (sqrt_lt_R0 T T0) as ST.
  set (a := / 2 * v ^ 2). set (b := r - / 2 * v ^ 2). set (lam := 5 / (v * sqrt T)). assert (L0 : 0 < lam) by (apply Rdiv_lt_0_compat; lra).
  set (c := a * lam ^ 2 + Rabs b * lam).
  destruct (value_exact k r v K0 V0 tf (0 + e) (T + e) xl xh ltac:(lra)) as (M1 & H1). apply exact_shift, (exact_scale g), exact_regular in H1.
  assert (C1 : a * lam ^ 2 + b * lam <= c) by (unfold c; apply Rplus_le_compat_l, Rmult_le_compat_r; [lra|apply Rle_abs]).
  assert (C2 : a * (- lam) ^ 2 + b * - lam <= c) by (unfold c; replace ((- lam) ^ 2) with (lam ^ 2) by ring; replace (b * - lam) with (- b * lam) by ring; apply Rplus_le_compat_l, Rmult_le_compat_r; [lra|rewrite <- Rabs_Ropp; apply Rle_abs]).
  destruct (exp_regular a b lam c (0 + 1) (T + 1) xl xh ltac:(lra) C1) as (M2 & H2). destruct (exp_regular a b (- lam) c (0 + 1) (T + 1) xl xh ltac:(lra) C2) as (M3 & H3).
  apply regular_shift in H2. apply regular_shift in H3.
  assert (DP : 0 < D) by (rewrite D_eq; pose proof (exp_pos (xh + r * T)); lra). set (A := D * exp (- 25)). assert (AP : 0 < A) by (apply Rmult_lt_0_compat; [exact DP|apply exp_pos]).
  assert (W2 : 0 <= A * exp (- lam * x0 - c)) by (left; apply Rmult_lt_0_compat; [exact AP|apply exp_pos]). assert (W3 : 0 <= A * exp (lam * x0 - c)) by (left; apply Rmult_lt_0_compat; [exact AP|apply exp_pos]).
  apply (regular_scale _ _ _ _ _ _ _ _ _ W2) in H2. apply (regular_scale _ _ _ _ _ _ _ _ _ W3) in H3.
  pose proof (regular_add _ _ _ _ _ _ _ _ _ _ H1 (regular_add _ _ _ _ _ _ _ _ _ _ H2 H3)) as RG. cbv beta in RG.
  set (M := Rabs g * M1 + (A * exp (- lam * x0 - c) * M2 + A * exp (lam * x0 - c) * M3)) in RG.
  set (F := fun t x => g * value tf k r v (t + e) x + (A * exp (- lam * x0 - c) * exp (lam * x + c * (t + 1)) + A * exp (lam * x0 - c) * exp (- lam * x + c * (t + 1)))) in RG.
  assert (FE : forall t x, F t x = g * value tf k r v (t + e) x + (A * exp (lam * (x - x0) + c * t) + A * exp (lam * (x0 - x) + c * t))).
  { intros t x. unfold F. rewrite !Rmult_assoc, <- !exp_plus. replace (- lam * x0 - c + (lam * x + c * (t + 1))) with (lam * (x - x0) + c * t) by ring. replace (lam * x0 - c + (- lam * x + c * (t + 1))) with (lam * (x0 - x) + c * t) by ring. reflexivity. }
  assert (C0 : 0 <= c). { unfold c. apply Rplus_le_le_0_compat; apply Rmult_le_pos; try apply Rabs_pos; try apply pow2_ge_0; try lra. unfold a. pose proof (pow2_ge_0 v). lra. }
  assert (XX : xl <= x0 <= xh) by (unfold xl, xh, x0; lra). assert (M0 : 0 <= M).
  { destruct RG as (F1 & F2 & F3 & F4 & P & Q & H). destruct (H 0 x0) as (_ & (B & _) & _); [lra|lra|]. pose proof (Rabs_pos (F1 0 x0)). lra. }
  assert (LX : lam * (xh - x0) = 25 /\ lam * (x0 - xl) = 25) by (unfold lam, xl, xh, x0; split; field; lra). destruct LX as [LX1 LX2].
  assert (GA : forall y, g * y <= Rabs y) by (intro y; destruct G as [-> | ->]; [rewrite Rmult_1_l; apply Rle_abs|replace (-1 * y) with (- y) by ring; rewrite <- Rabs_Ropp; apply Rle_abs]).
  exists M. split; [exact M0|]. intros sch nt np ex m VV SS EE.
  destruct (price_below sch m g F M d VV SS EE ltac:(lra)) as (p & Ep & Hp).
  - exact RG.
  - intros x Hx. change (x_min m) with xl in Hx. change (x_max m) with xh in Hx. rewrite FE.
    assert (P1 : 0 < A * exp (lam * (x - x0) + c * 0)) by (apply Rmult_lt_0_compat; [exact AP|apply exp_pos]). assert (P2 : 0 < A * exp (lam * (x0 - x) + c * 0)) by (apply Rmult_lt_0_compat; [exact AP|apply exp_pos]).
    pose proof (layer tf k r v e x xh d K0 R0 V0 E0 D0 (proj2 Hx) E1) as VI. change (payoff m (exp x)) with (vanilla_payoff tf k (exp x)). rewrite Rplus_0_l.
    pose proof (GA (vanilla_payoff tf k (exp x) - value tf k r v e x)) as GG. lra.
  - intros t t' Ht Ht' _. change (x_min m) with xl. change (x_max m) with xh. destruct (dt_times m VV) as [DT NT]. change (f_T m) with T in NT.
    assert (TR : 0 <= INR t * dt m <= T). { apply le_INR in Ht. pose proof (pos_INR t). split; [apply Rmult_le_pos; lra|]. rewrite <- NT. apply Rmult_le_compat_r; lra. }
    destruct (edges_close m e (INR t * dt m) t' eq_refl eq_refl eq_refl eq_refl eq_refl eq_refl VV E0 E2 E3 TR Ht') as [EL EH].
    set (u := INR t * dt m) in *. assert (XT : 0 <= u * M * dt m) by (apply Rmult_le_pos; [apply Rmult_le_pos|]; lra). assert (CU : 0 <= c * u) by (apply Rmult_le_pos; lra). rewrite !FE.
    assert (BIG : D <= A * exp (25 + c * u)) by (unfold A; rewrite Rmult_assoc, <- exp_plus; rewrite <- (Rmult_1_r D) at 1; apply Rmult_le_compat_l; [lra|]; rewrite <- exp_0; apply exp_le; lra).
    assert (PP : forall y, 0 < A * exp y) by (intro y; apply Rmult_lt_0_compat; [exact AP|apply exp_pos]). split.
    + rewrite LX2. pose proof (PP (lam * (xl - x0) + c * u)). pose proof (GA (edge_lo m t' - value tf k r v (u + e) xl)). lra.
    + rewrite LX1. pose proof (PP (lam * (x0 - xh) + c * u)). pose proof (GA (edge_hi m t' - value tf k r v (u + e) xh)). lra.
  - exists p. split; [exact Ep|]. apply Rle_trans with (1 := Hp). change (f_r m) with r. change (f_T m) with T. change (ln (f_s m)) with x0. apply Rmult_le_compat_l; [left; apply exp_pos|]. rewrite FE. replace (x0 - x0) with 0 by ring. rewrite Rmult_0_r, Rplus_0_l.
    assert (BE : A * exp (c * T) + A * exp (c * T) = D * barrier_error r v T).
    { unfold barrier_error, A. replace (D * exp (- 25) * exp (c * T) + D * exp (- 25) * exp (c * T)) with (D * (2 * (exp (- 25) * exp (c * T)))) by ring. rewrite <- exp_plus. f_equal. f_equal. f_equal. unfold c, lam, a, b. replace T with (sqrt T * sqrt T) at 3 by (apply sqrt_sqrt; lra). field. lra. }
    pose proof (GA (value tf k r v (T + e) x0 - value tf k r v T x0)). lra.
Qed.
End OneSide.

(** ** C91 *)
(** the closed-form price of black_scholes_merton.rs with the cost of carry of a stock without dividends *)
Definition closed_form (tf : type_flag) (s k r v T : R) : R := (match tf with Call => call_price | Put => put_price end) s k T r r v.
Lemma closed_value tf s k r v T : 0 < s -> closed_form tf s k r v T = exp (- r * T) * value tf k r v T (ln s).
Proof.
  intro S0. unfold closed_form, value. rewrite (exp_ln s S0). destruct tf; unfold call_price, put_price; rewrite Rminus_eq_0, !Rmult_0_l, exp_0, Rminus_0_r; (replace (- 0 * T) with 0 by ring); rewrite exp_0; replace (- r * T) with (- (r * T)) by ring; rewrite exp_Ropp; field; apply Rgt_not_eq, exp_pos.
Qed.
(** what the boundary values at five standard deviations can contribute *)
Definition edge_error (s k r v T : R) : R := exp (- r * T) * (k + s * exp (5 * v * sqrt T + r * T)) * barrier_error r v T.
Lemma grid_err_bound s k r v T nt np tf ex : let m := Fd s k r v T nt np tf ex in fd_valid m ->
  grid_err m <= (T * T + T * (kap m * (100 * v ^ 2 * T)) + 5 * v * sqrt T) * (/ INR nt + / INR np).
Proof.
  intros m VV. pose proof VV as (_ & _ & _ & V0 & T0 & N & P). cbn in V0, T0, N, P. pose proof (kap_pos m) as KP. pose proof (sqrt_lt_R0 T T0) as ST.
  assert (NP : 1 <= INR np) by (change 1 with (INR 1); apply le_INR; lia). assert (NN : 1 <= INR nt) by (change 1 with (INR 1); apply le_INR; lia).
  assert (DX : dx m = 10 * v * sqrt T * / INR np) by (rewrite (dx_val m); reflexivity). unfold grid_err. rewrite DX. unfold dt. change (f_T m) with T. change (f_nt m) with nt.
  assert (IP : 0 < / INR np) by (apply Rinv_0_lt_compat; lra). assert (IN : 0 < / INR nt) by (apply Rinv_0_lt_compat; lra).
  assert (I1 : / INR np <= 1) by (rewrite <- Rinv_1; apply Rinv_le_contravar; lra). set (i := / INR np) in *. unfold Rdiv. set (j := / INR nt) in *. set (K := kap m) in *.
  replace ((10 * v * sqrt T * i) ^ 2) with (100 * v ^ 2 * (sqrt T * sqrt T) * i ^ 2) by ring. rewrite (sqrt_sqrt T) by lra.
  assert (II : i ^ 2 <= i) by (simpl; rewrite Rmult_1_r; rewrite <- (Rmult_1_r i) at 3; apply Rmult_le_compat_l; lra).
  assert (A1 : 0 <= T * T) by (apply Rmult_le_pos; lra). assert (A2 : 0 <= T * (K * (100 * v ^ 2 * T))) by (repeat apply Rmult_le_pos; try lra; apply pow2_ge_0). assert (A3 : 0 <= 5 * v * sqrt T) by (repeat apply Rmult_le_pos; lra).
  set (Y := T * (K * (100 * v ^ 2 * T))) in *. replace (T * (T * j + K * (100 * v ^ 2 * T * i ^ 2)) + 10 * v * sqrt T * i * / 2) with (T * T * j + Y * i ^ 2 + 5 * v * sqrt T * i) by (unfold Y; field).
  assert (Y * i ^ 2 <= Y * i) by (apply Rmult_le_compat_l; assumption). assert (0 <= T * T * i) by (apply Rmult_le_pos; lra). assert (0 <= Y * j) by (apply Rmult_le_pos; lra). assert (0 <= 5 * v * sqrt T * j) by (apply Rmult_le_pos; lra). lra.
Qed.
Definition rate (r v T : R) : R := T * T + T * ((/ 2 * v ^ 2 / 12 + Rabs (r - / 2 * v ^ 2) / 6) * (100 * v ^ 2 * T)) + 5 * v * sqrt T.
Theorem fd_converges : forall s k r v T tf d, 0 < s -> 0 < k -> 0 < r -> 0 < v -> 0 < T -> 0 < d ->
  exists C, 0 <= C /\ forall sch nt np ex, let m := Fd s k r v T nt np tf ex in
    fd_valid m -> stable sch m -> early_exercise m = false ->
    exists p, price_of sch m = Ret p /\ Rabs (p - closed_form tf s k r v T) <= edge_error s k r v T + d + C * (/ INR nt + / INR np).
Proof.
  intros s k r v T tf d S0 K0 R0 V0 T0 D0. assert (D2 : 0 < d / 2) by lra.
  destruct (one_side s k r v T tf S0 K0 R0 V0 T0 1 (d / 2) (or_introl eq_refl) D2) as (M1 & P1 & H1).
  destruct (one_side s k r v T tf S0 K0 R0 V0 T0 (-1) (d / 2) (or_intror eq_refl) D2) as (M2 & P2 & H2).
  assert (RP : 0 <= rate r v T).
  { unfold rate. pose proof (sqrt_pos T). pose proof (pow2_ge_0 v). pose proof (Rabs_pos (r - / 2 * v ^ 2)). repeat apply Rplus_le_le_0_compat; repeat apply Rmult_le_pos; lra. }
  exists ((M1 + M2) * rate r v T). split; [apply Rmult_le_pos; lra|]. intros sch nt np ex m VV SS EE. destruct (H1 sch nt np ex VV SS EE) as (p & Ep & Hp). destruct (H2 sch nt np ex VV SS EE) as (q & Eq & Hq). fold m in Ep, Hp, Eq, Hq. rewrite Ep in Eq. injection Eq as <-.
  exists p. split; [exact Ep|]. rewrite (closed_value tf s k r v T S0). pose proof (grid_err_bound s k r v T nt np tf ex VV) as GE. cbv zeta in GE. fold m in GE. change (kap m) with (/ 2 * v ^ 2 / 12 + Rabs (r - / 2 * v ^ 2) / 6) in GE. fold (rate r v T) in GE.
  set (z := value tf k r v T (ln s)) in *. set (q := exp (- r * T)) in *. assert (Q : 0 < q <= 1). { split; [apply exp_pos|]. unfold q. rewrite <- exp_0. apply exp_le. assert (0 < r * T) by (apply Rmult_lt_0_compat; assumption). lra. }
  assert (EQ : q * (cap s k r v T * barrier_error r v T) = edge_error s k r v T) by (unfold edge_error, cap, q; ring).
  set (B := / INR nt + / INR np) in *. assert (GP : 0 <= grid_err m).
  { unfold grid_err. destruct (dx_times m VV) as [DX _]. destruct (dt_times m VV) as [DT _]. change (f_T m) with T. assert (0 <= kap m * dx m ^ 2) by (apply Rmult_le_pos; [apply kap_pos|apply pow2_ge_0]). assert (0 <= T * (dt m + kap m * dx m ^ 2)) by (apply Rmult_le_pos; lra). lra. }
  assert (X1 : forall M, 0 <= M -> q * (M * grid_err m) <= M * (rate r v T * B)). { intros M HM. rewrite <- (Rmult_1_l (M * (rate r v T * B))). apply Rmult_le_compat; [lra|apply Rmult_le_pos; assumption|lra|apply Rmult_le_compat_l; assumption]. }
  pose proof (X1 M1 P1). pose proof (X1 M2 P2). assert (BB : 0 <= rate r v T * B) by lra. assert (0 <= M1 * (rate r v T * B)) by (apply Rmult_le_pos; assumption). assert (0 <= M2 * (rate r v T * B)) by (apply Rmult_le_pos; assumption). assert (q * d <= d) by (rewrite <- (Rmult_1_l d) at 2; apply Rmult_le_compat_r; lra).
  apply Rabs_le. split; lra.
Qed.
(** fine enough grids *)
Lemma nat_above x : exists N, x < INR N.
Proof.
  exists (Z.to_nat (up x)). destruct (archimed x) as [A _]. destruct (Z.le_gt_cases 0 (up x)) as [P|P].
  - rewrite INR_IZR_INZ, Z2Nat.id by exact P. lra.
  - apply Z.lt_le_incl, IZR_le in P. pose proof (pos_INR (Z.to_nat (up x))). lra.
Qed.
Theorem fd_limit : forall s k r v T tf d, 0 < s -> 0 < k -> 0 < r -> 0 < v -> 0 < T -> 0 < d ->
  exists N, forall sch nt np ex, let m := Fd s k r v T nt np tf ex in (N <= nt)%nat -> (N <= np)%nat ->
    fd_valid m -> stable sch m -> early_exercise m = false ->
    exists p, price_of sch m = Ret p /\ Rabs (p - closed_form tf s k r v T) <= edge_error s k r v T + d.
Proof.
  intros s k r v T tf d S0 K0 R0 V0 T0 D0. destruct (fd_converges s k r v T tf (d / 2) S0 K0 R0 V0 T0 ltac:(lra)) as (C & C0 & H).
  destruct (nat_above (4 * (C + 1) / d)) as (N & HN). exists N. intros sch nt np ex m Hn Hp VV SS EE. destruct (H sch nt np ex VV SS EE) as (p & Ep & B). exists p. split; [exact Ep|]. apply Rle_trans with (1 := B).
  assert (P : 0 < 4 * (C + 1) / d) by (apply Rdiv_lt_0_compat; lra). apply le_INR in Hn. apply le_INR in Hp.
  assert (IA : forall j, INR N <= INR j -> / INR j <= d / (4 * (C + 1))). { intros j Hj. apply Rle_trans with (/ INR N); [apply Rinv_le_contravar; lra|]. replace (d / (4 * (C + 1))) with (/ (4 * (C + 1) / d)) by (field; lra). apply Rinv_le_contravar; lra. }
  pose proof (IA nt Hn) as I1. pose proof (IA np Hp) as I2. assert (Q : C * (/ INR nt + / INR np) <= d / 2); [|lra].
  apply Rle_trans with ((C + 1) * (d / (4 * (C + 1)) + d / (4 * (C + 1)))); [|right; field; lra].
  assert (N0 : 0 < / INR nt /\ 0 < / INR np) by (split; apply Rinv_0_lt_compat; lra). apply Rmult_le_compat; lra.
Qed.

(** ** The limit is not the closed form: the put boundary is discounted twice *)
Lemma value_pos k r v t x : 0 < k -> 0 < v -> 0 < t -> 0 < value Put k r v t x.
Proof. intros K V T. destruct (price_bounds (exp x) k t 0 r v) as (_ & _ & H & _); [split; [apply exp_pos|split; [exact K|split; assumption]]|exact H]. Qed.
Lemma value_intrinsic k r v t x : 0 < k -> 0 < v -> 0 < t -> k - exp (x + r * t) <= value Put k r v t x.
Proof.
  intros K V T. rewrite exp_plus. pose proof (std_lin _ _ (-1) k _ _ (std_lognormal (exp x) r v t T) (std_const 1)) as H. cbv beta in H. apply Rle_trans with (-1 * (exp x * exp (r * t)) + k * 1); [lra|].
  refine (std_le _ _ _ _ _ H (value_E Put k r v t x K V T)). intro z. unfold vanilla_payoff. apply Rle_trans with (2 := Rmax_l _ _). lra.
Qed.
Lemma value_strike k k' r v t x : 0 < k -> k <= k' -> 0 < v -> 0 < t -> value Put k r v t x <= value Put k' r v t x.
Proof.
  intros K L V T. refine (std_le _ _ _ _ _ (value_E Put k r v t x K V T) (value_E Put k' r v t x ltac:(lra) V T)). intro z. unfold vanilla_payoff. apply Rle_max_compat_r. lra.
Qed.
(** a put struck at half the lowest price of the grid is worth little for a short time *)
Lemma value_far k r v t x : 0 < k -> 2 * k <= exp x -> 0 < v -> 0 < t -> value Put k r v t x <= 4 * k * msq r v t.
Proof.
  intros K L V T. set (s := exp x) in *. assert (S0 : 0 < s) by lra. pose proof (std_lin _ _ (4 * k * / s ^ 2) 0 _ _ (std_sq s r v t T) (std_const 1)) as H. cbv beta in H.
  replace (4 * k * msq r v t) with (4 * k * / s ^ 2 * (s ^ 2 * msq r v t) + 0 * 1) by (field; lra). refine (std_le _ _ _ _ _ (value_E Put k r v t x K V T) H). intro z. fold s.
  set (u := lognormal_at s r v t z). assert (U : 0 < u) by (unfold u, lognormal_at; apply Rmult_lt_0_compat; [exact S0|apply exp_pos]). unfold vanilla_payoff. rewrite Rmult_0_l, Rplus_0_r. apply Rmax_lub.
  - destruct (Rle_lt_dec k u) as [C|C].
    + apply Rle_trans with 0; [lra|]. apply Rmult_le_pos; [|apply pow2_ge_0]. apply Rmult_le_pos; [lra|]. left. apply Rinv_0_lt_compat, pow_lt, S0.
    + apply Rle_trans with (k * 1); [lra|]. rewrite (Rmult_comm 4 k), !Rmult_assoc. apply Rmult_le_compat_l; [lra|]. apply Rmult_le_reg_r with (s ^ 2); [apply pow_lt, S0|]. replace (4 * (/ s ^ 2 * (u - s) ^ 2) * s ^ 2) with ((2 * (s - u)) ^ 2) by (field; lra). rewrite Rmult_1_l. apply pow_incr. lra.
  - apply Rmult_le_pos; [|apply pow2_ge_0]. apply Rmult_le_pos; [lra|]. left. apply Rinv_0_lt_compat, pow_lt, S0.
Qed.
Lemma msq_linear r v T t : 0 < r -> 0 < v -> 0 <= t <= T -> msq r v t <= (2 * r + v ^ 2) * exp ((2 * r + v ^ 2) * T) * t.
Proof.
  intros R0 V0 Ht. set (c := 2 * r + v ^ 2). assert (C : 0 < c) by (unfold c; pose proof (pow2_ge_0 v); lra).
  destruct (mvt_cc (msq r v) (fun t => c * exp (c * t) - 2 * r * exp (r * t)) 0 t (proj1 Ht)) as (y & Hy & E).
  - intros u _. unfold msq. fold c. auto_derive; [exact I|]. ring.
  - assert (Z : msq r v 0 = 0) by (unfold msq; rewrite !Rmult_0_r, exp_0; ring). rewrite Z in E. replace (msq r v t) with ((c * exp (c * y) - 2 * r * exp (r * y)) * (t - 0)) by lra. rewrite Rminus_0_r. apply Rmult_le_compat_r; [lra|].
    pose proof (exp_pos (r * y)). assert (0 < 2 * r * exp (r * y)) by (apply Rmult_lt_0_compat; lra). assert (c * exp (c * y) <= c * exp (c * T)) by (apply Rmult_le_compat_l; [lra|apply exp_le, Rmult_le_compat_l; lra]). lra.
Qed.
Theorem fd_put_limit_refuted : forall s k r v T, 0 < s -> 0 < k -> 0 < r -> 0 < v -> 0 < T ->
  (* the strike is above the lowest price of the grid, grown at the risk-free rate *)
  s * exp (- (5 * v * sqrt T) + r * T) < k ->
  exists c C, 0 < c /\ 0 <= C /\ forall sch nt np ex, let m := Fd s k r v T nt np Put ex in
    fd_valid m -> stable sch m -> early_exercise m = false ->
    exists p, price_of sch m = Ret p /\ p <= closed_form Put s k r v T - c + C * (/ INR nt + / INR np).
Proof.
  intros s k r v T S0 K0 R0 V0 T0 KK. set (x0 := ln s). set (xl := ln s - 5 * v * sqrt T). set (xh := ln s + 5 * v * sqrt T).
  pose proof (sqrt_lt_R0 T T0) as ST. assert (SQ : 0 < v * sqrt T) by (apply Rmult_lt_0_compat; assumption).
  assert (KX : exp (xl + r * T) < k). { unfold xl. replace (ln s - 5 * v * sqrt T + r * T) with (ln s + (- (5 * v * sqrt T) + r * T)) by ring. rewrite exp_plus, (exp_ln s S0). exact KK. }
  assert (RT : 0 < r * T) by (apply Rmult_lt_0_compat; assumption). pose proof (exp_pos xl) as PXL. assert (XLK : exp xl < k) by (apply Rle_lt_trans with (2 := KX); apply exp_le; lra).
  set (kap0 := k - exp (xl + r * T)). assert (KP : 0 < kap0) by (unfold kap0; lra). set (k1 := exp xl / 2). assert (K1 : 0 < k1) by (unfold k1; lra).
  set (B := (2 * r + v ^ 2) * exp ((2 * r + v ^ 2) * (T + 1))). assert (BP : 0 < B) by (unfold B; pose proof (pow2_ge_0 v); apply Rmult_lt_0_compat; [lra|apply exp_pos]).
  set (c1 := Rmin 1 (kap0 * r * exp (- r * T) / (4 * k1 * B))).
  assert (KB : 0 < 4 * k1 * B) by (apply Rmult_lt_0_compat; [lra|exact BP]). assert (KR : 0 < kap0 * r * exp (- r * T)) by (repeat apply Rmult_lt_0_compat; try assumption; apply exp_pos).
  assert (C1 : 0 < c1 <= 1) by (unfold c1; split; [apply Rmin_glb_lt; [lra|apply Rdiv_lt_0_compat; assumption]|apply Rmin_l]).
  assert (C2 : c1 * (4 * k1 * B) <= kap0 * r * exp (- r * T)) by (apply Rle_trans with (kap0 * r * exp (- r * T) / (4 * k1 * B) * (4 * k1 * B)); [apply Rmult_le_compat_r; [lra|apply Rmin_r]|right; field; lra]).
  set (W := value Put k1 r v). set (V := value Put k r v). assert (WT : 0 < W T x0) by (apply value_pos; assumption).
  set (eta := c1 * W T x0 / 8). assert (EP : 0 < eta) by (unfold eta; apply Rdiv_lt_0_compat; [apply Rmult_lt_0_compat; lra|lra]).
  assert (A2 : locally 0 (fun e => 4 * k1 * B * e < eta)) by (apply ev_lt; [auto_derive; exact I|rewrite Rmult_0_r; exact EP]).
  assert (A3 : locally 0 (fun e => exp (xl + r * T) * (exp (r * e) - 1) + kap0 * r * exp (- r * T) * e < eta)) by (apply ev_lt; [auto_derive; exact I|rewrite !Rmult_0_r, exp_0; lra]).
  assert (A4 : locally 0 (fun e => e < 1)) by (apply ev_lt; [auto_derive; exact I|lra]).
  destruct (locally_pos _ (filter_and _ _ (msq_shift r v xh eta EP) (filter_and _ _ A2 (filter_and _ _ A3 (filter_and _ _ A4 (filter_and _ _ (value_shift k r v T Put x0 eta K0 V0 T0 EP) (value_shift k1 r v T Put x0 eta K1 V0 T0 EP))))))) as (e & E0 & E1 & E2 & E3 & E4 & E5 & E6).
  destruct (value_exact k r v K0 V0 Put (0 + e) (T + e) xl xh ltac:(lra)) as (M1 & H1). apply exact_shift in H1.
  destruct (value_exact k1 r v K1 V0 Put (0 + e) (T + e) xl xh ltac:(lra)) as (M2 & H2). apply exact_shift, (exact_scale (- c1)) in H2.
  pose proof (exact_regular _ _ _ _ _ _ _ _ (exact_add _ _ _ _ _ _ _ _ _ _ H1 H2)) as RG. cbv beta in RG. fold V W in RG.
  set (M := M1 + Rabs (- c1) * M2) in RG. set (F := fun t x => V (t + e) x + - c1 * W (t + e) x) in RG.
  assert (XX : xl <= x0 <= xh) by (unfold xl, xh, x0; lra). assert (M0 : 0 <= M).
  { destruct RG as (F1 & F2 & F3 & F4 & P & Q & H). destruct (H 0 x0) as (_ & (Bd & _) & _); [lra|lra|]. pose proof (Rabs_pos (F1 0 x0)). lra. }
  assert (FAR : forall t x, 0 <= t <= T -> xl <= x -> c1 * W (t + e) x <= c1 * (4 * k1 * B * (t + e))).
  { intros t x Ht Hx. apply Rmult_le_compat_l; [lra|]. apply Rle_trans with (4 * k1 * msq r v (t + e)); [apply value_far; try assumption; [unfold k1; assert (exp xl <= exp x) by (apply exp_le; lra); lra|lra]|]. rewrite (Rmult_assoc (4 * k1)). apply Rmult_le_compat_l; [lra|]. apply (msq_linear r v (T + 1)); try assumption. lra. }
  exists (exp (- r * T) * eta), (M * rate r v T). split; [apply Rmult_lt_0_compat; [apply exp_pos|exact EP]|]. split.
  { apply Rmult_le_pos; [exact M0|]. unfold rate. pose proof (pow2_ge_0 v). pose proof (Rabs_pos (r - / 2 * v ^ 2)). repeat apply Rplus_le_le_0_compat; repeat apply Rmult_le_pos; lra. }
  intros sch nt np ex m VV SS EE. destruct (price_below sch m 1 F M (2 * eta) VV SS EE ltac:(lra)) as (p & Ep & Hp).
  - exact RG.
  - intros x Hx. change (x_min m) with xl in Hx. change (x_max m) with xh in Hx. unfold F. rewrite Rplus_0_l.
    pose proof (layer Put k r v e x xh eta K0 R0 V0 E0 EP (proj2 Hx) E1) as VI. apply Rabs_le_between in VI. change (payoff m (exp x)) with (vanilla_payoff Put k (exp x)). fold V in VI.
    pose proof (FAR 0 x ltac:(lra) ltac:(lra)) as FA. rewrite Rplus_0_l in FA. assert (c1 * (4 * k1 * B * e) <= 1 * eta) by (apply Rmult_le_compat; try lra; left; apply Rmult_lt_0_compat; assumption). lra.
  - intros t t' Ht Ht' Htt. change (x_min m) with xl. change (x_max m) with xh. destruct (dt_times m VV) as [DT NT]. change (f_T m) with T in NT. change (f_nt m) with nt in *.
    assert (TR : 0 <= INR t * dt m <= T). { apply le_INR in Ht. pose proof (pos_INR t). split; [apply Rmult_le_pos; lra|]. rewrite <- NT. apply Rmult_le_compat_r; lra. }
    assert (TT : INR t * dt m <= INR t' * dt m) by (apply Rmult_le_compat_r; [lra|apply le_INR; lia]). set (u := INR t * dt m) in *. assert (XT : 0 <= u * M * dt m) by (apply Rmult_le_pos; [apply Rmult_le_pos|]; lra). split.
    + unfold edge_lo. change (f_tf m) with Put. cbv beta iota. unfold put_boundary. change (x_min m) with xl. change (f_k m) with k. change (f_r m) with r. unfold F.
      pose proof (value_intrinsic k r v (u + e) xl K0 V0 ltac:(lra)) as VI. fold V in VI. pose proof (FAR u xl TR ltac:(lra)) as FA.
      assert (FB : c1 * (4 * k1 * B * (u + e)) <= kap0 * r * exp (- r * T) * (u + e)) by (rewrite <- Rmult_assoc; apply Rmult_le_compat_r; [lra|exact C2]).
      assert (RU : r * u <= r * T) by (apply Rmult_le_compat_l; lra). assert (RU0 : 0 <= r * u) by (apply Rmult_le_pos; lra).
      assert (Q1 : exp (- r * (INR t' * dt m)) <= exp (- r * u)) by (apply exp_le; assert (r * u <= r * (INR t' * dt m)) by (apply Rmult_le_compat_l; lra); lra). assert (Q1' : k * exp (- r * (INR t' * dt m)) <= k * exp (- r * u)) by (apply Rmult_le_compat_l; lra).
      assert (Q2 : kap0 * (r * exp (- r * T) * u) <= kap0 * (1 - exp (- r * u))).
      { apply Rmult_le_compat_l; [lra|]. replace (1 - exp (- r * u)) with (exp (- r * u) * (exp (r * u) - 1)) by (rewrite Rmult_minus_distr_l, <- exp_plus; replace (- r * u + r * u) with 0 by ring; rewrite exp_0; ring). replace (r * exp (- r * T) * u) with (exp (- r * T) * (r * u)) by ring.
        apply Rmult_le_compat; [left; apply exp_pos|exact RU0|apply exp_le; lra|]. pose proof (exp_ineq1_le (r * u)). lra. }
      assert (Q3 : (1 - exp (- r * u)) * exp (xl + r * u) <= (1 - exp (- r * u)) * exp (xl + r * T)). { apply Rmult_le_compat_l; [|apply exp_le; lra]. assert (exp (- r * u) <= 1) by (rewrite <- exp_0; apply exp_le; lra). lra. }
      assert (Q4 : exp (- r * u) * exp (xl + r * u) = exp xl) by (rewrite <- exp_plus; f_equal; ring).
      assert (Q5 : exp (xl + r * (u + e)) <= exp (xl + r * u) + exp (xl + r * T) * (exp (r * e) - 1)).
      { replace (xl + r * (u + e)) with (xl + r * u + r * e) by ring. rewrite (exp_plus (xl + r * u)). assert (0 <= exp (r * e) - 1) by (assert (exp 0 <= exp (r * e)) by (apply exp_le, Rmult_le_pos; lra); rewrite exp_0 in *; lra). assert (exp (xl + r * u) * (exp (r * e) - 1) <= exp (xl + r * T) * (exp (r * e) - 1)) by (apply Rmult_le_compat_r; [assumption|apply exp_le; lra]). lra. }
      unfold kap0 in *. lra.
    + unfold edge_hi. change (f_tf m) with Put. cbv beta iota. unfold F. pose proof (value_strike k1 k r v (u + e) xh K1 ltac:(unfold k1; lra) V0 ltac:(lra)) as VS. fold V W in VS. pose proof (value_pos k1 r v (u + e) xh K1 V0 ltac:(lra)) as WP. fold W in WP.
      assert (c1 * W (u + e) xh <= 1 * W (u + e) xh) by (apply Rmult_le_compat_r; lra). lra.
  - exists p. split; [exact Ep|]. rewrite Rmult_1_l in Hp. change (f_r m) with r in Hp. change (f_T m) with T in Hp. change (ln (f_s m)) with x0 in Hp. apply Rle_trans with (1 := Hp). rewrite (closed_value Put s k r v T S0). fold V x0. unfold F.
    pose proof (grid_err_bound s k r v T nt np Put ex VV) as GE. cbv zeta in GE. fold m in GE. change (kap m) with (/ 2 * v ^ 2 / 12 + Rabs (r - / 2 * v ^ 2) / 6) in GE. fold (rate r v T) in GE.
    apply Rabs_def2 in E5. apply Rabs_def2 in E6. fold V in E5. fold W in E6. set (q := exp (- r * T)) in *. assert (Q : 0 < q <= 1) by (split; [apply exp_pos|unfold q; rewrite <- exp_0; apply exp_le; lra]).
    assert (N1 : c1 * (W T x0 - eta) <= c1 * W (T + e) x0) by (apply Rmult_le_compat_l; lra). assert (N2 : c1 * eta <= 1 * eta) by (apply Rmult_le_compat_r; lra).
    assert (N3 : V (T + e) x0 + - c1 * W (T + e) x0 + 2 * eta <= V T x0 - eta) by (unfold eta in *; lra).
    set (Bn := / INR nt + / INR np) in *. assert (GP : 0 <= grid_err m).
    { unfold grid_err. destruct (dx_times m VV) as [DX _]. destruct (dt_times m VV) as [DT _]. change (f_T m) with T. assert (0 <= kap m * dx m ^ 2) by (apply Rmult_le_pos; [apply kap_pos|apply pow2_ge_0]). assert (0 <= T * (dt m + kap m * dx m ^ 2)) by (apply Rmult_le_pos; lra). lra. }
    assert (N4 : q * (M * grid_err m) <= M * rate r v T * Bn). { rewrite <- (Rmult_1_l (M * rate r v T * Bn)), (Rmult_assoc M). apply Rmult_le_compat; [lra|apply Rmult_le_pos; assumption|lra|apply Rmult_le_compat_l; assumption]. }
    assert (N5 : q * (V (T + e) x0 + - c1 * W (T + e) x0 + 2 * eta) <= q * (V T x0 - eta)) by (apply Rmult_le_compat_l; lra). lra.
Qed.

(** ** The hypotheses are met *)
Lemma fine_grids : forall s k r v T, 0 < s -> 0 < k -> 0 < r -> 0 < v -> 0 < T -> forall N, exists nt np, (N <= nt)%nat /\ (N <= np)%nat /\
  forall sch tf ex, fd_valid (Fd s k r v T nt np tf ex) /\ stable sch (Fd s k r v T nt np tf ex).
Proof.
  intros s k r v T S0 K0 R0 V0 T0 N. set (y := Rabs (r - / 2 * v ^ 2) * (10 * v * sqrt T)). destruct (nat_above (y / v ^ 2)) as (N1 & H1).
  set (np := (N + N1 + 3)%nat). exists (np * np)%nat, np. split; [unfold np; nia|]. split; [unfold np; lia|]. intros sch tf ex.
  assert (P : 0 < INR np) by (apply (lt_INR 0); unfold np; lia). assert (V2 : 0 < v ^ 2) by (apply pow_lt, V0). assert (Y0 : 0 <= y) by (unfold y; pose proof (sqrt_pos T); pose proof (Rabs_pos (r - / 2 * v ^ 2)); repeat apply Rmult_le_pos; lra). split.
  - unfold fd_valid. cbn [f_s f_k f_r f_v f_T f_nt f_np]. repeat (split; [assumption|]). split; [unfold np; nia|unfold np; lia].
  - unfold stable. cbn [f_s f_k f_r f_v f_T f_nt f_np]. rewrite mult_INR. assert (Q : 1 <= INR np) by (change 1 with (INR 1); apply le_INR; unfold np; lia). split.
    + replace (Rabs (r - / 2 * v ^ 2) * (10 * v * sqrt T / INR np)) with (y / INR np) by (unfold y, Rdiv; ring). apply Rmult_le_reg_r with (INR np); [exact P|]. unfold Rdiv. rewrite Rmult_assoc, Rinv_l, Rmult_1_r by lra.
      assert (L : INR N1 <= INR np) by (apply le_INR; unfold np; lia). apply Rle_trans with (v ^ 2 * (y / v ^ 2)); [right; field; lra|]. apply Rmult_le_compat_l; lra.
    + assert (0 <= INR np * INR np) by (apply Rmult_le_pos; lra). destruct sch; [|exact I|]; simpl (INR np ^ 2); rewrite Rmult_1_r; lra.
Qed.
(** an at-the-money option on 100 with 5% interest and 20% volatility for one year:
    the boundary contributes less than 10 cents, and does bias the put *)
Lemma exp_neg_small : exp (- (47 / 4)) < / 10000.
Proof.
  assert (E : exp (47 / 4) > 10000).
  { replace (47 / 4) with (INR 47 * / 4) by (simpl; lra). assert (P : forall n x, exp (INR n * x) = exp x ^ n).
    { intros n x. induction n as [|n IH]; [simpl (INR 0); rewrite Rmult_0_l; apply exp_0|]. rewrite S_INR, Rmult_plus_distr_r, exp_plus, IH, Rmult_1_l. simpl. ring. }
    replace (/ 4) with (INR 2 * / 8) by (simpl; lra). rewrite P, P. pose proof (exp_ineq1 (/ 8) ltac:(lra)) as I8. rewrite <- pow_mult. apply Rlt_gt, Rlt_le_trans with ((9 / 8) ^ (2 * 47)); [|apply pow_incr; lra]. simpl. lra. }
  rewrite exp_Ropp. apply Rinv_lt_contravar; [|exact E]. apply Rmult_lt_0_compat; lra.
Qed.
Example textbook_edge : edge_error 100 100 (/ 20) (/ 5) 1 < / 10 /\ 100 * exp (- (5 * / 5 * sqrt 1) + / 20 * 1) < 100.
Proof.
  unfold edge_error, barrier_error. rewrite sqrt_1. split.
  - replace (- (25 / 2) + 5 * Rabs (/ 20 - / 2 * (/ 5) ^ 2) * 1 / / 5) with (- (47 / 4)) by (rewrite Rabs_right by (simpl; lra); field). pose proof exp_neg_small as ES. pose proof (exp_pos (- (47 / 4))) as EP.
    assert (E1 : exp (- / 20 * 1) <= 1) by (apply Rle_trans with (exp 0); [apply exp_le; lra|rewrite exp_0; lra]). pose proof (exp_pos (- / 20 * 1)) as E1'. assert (E2 : exp (5 * / 5 * 1 + / 20 * 1) <= 3.3).
    { replace (5 * / 5 * 1 + / 20 * 1) with (1 + / 20) by field. rewrite exp_plus. pose proof exp_le_3 as E3. assert (E4 : exp (/ 20) <= 20 / 19).
      { replace (/ 20) with (- - / 20) by ring. rewrite exp_Ropp. pose proof (exp_ineq1_le (- / 20)). replace (20 / 19) with (/ (1 + - / 20)) by field. apply Rinv_le_contravar; lra. }
      apply Rle_trans with (3 * (20 / 19)); [apply Rmult_le_compat; try lra; left; apply exp_pos|lra]. }
    pose proof (exp_pos (5 * / 5 * 1 + / 20 * 1)) as E2'. set (z := exp (- (47 / 4))) in *. set (w := exp (5 * / 5 * 1 + / 20 * 1)) in *. set (q := exp (- / 20 * 1)) in *.
    apply Rle_lt_trans with (1 * (100 + 100 * 3.3) * (2 * z)); [|lra]. apply Rmult_le_compat_r; [lra|]. apply Rmult_le_compat; lra.
  - assert (exp (- (5 * / 5 * 1) + / 20 * 1) < 1) by (apply Rlt_le_trans with (exp 0); [apply exp_increasing; lra|rewrite exp_0; lra]). lra.
Qed.
Example textbook_limit : exists N, forall sch nt np, let m := Fd 100 100 (/ 20) (/ 5) 1 nt np Put (European date_max) in (N <= nt)%nat -> (N <= np)%nat -> fd_valid m -> stable sch m ->
  exists p, price_of sch m = Ret p /\ Rabs (p - closed_form Put 100 100 (/ 20) (/ 5) 1) <= / 5.
Proof.
  destruct (fd_limit 100 100 (/ 20) (/ 5) 1 Put (/ 10)) as (N & H); try lra. exists N. intros sch nt np m A B VV SS. destruct (H sch nt np (European date_max) A B VV SS eq_refl) as (p & E & L). exists p. split; [exact E|]. pose proof (proj1 textbook_edge). lra.
Qed.
Example textbook_bias : exists c N, 0 < c /\ forall sch nt np, let m := Fd 100 100 (/ 20) (/ 5) 1 nt np Put (European date_max) in (N <= nt)%nat -> (N <= np)%nat -> fd_valid m -> stable sch m ->
  exists p, price_of sch m = Ret p /\ p <= closed_form Put 100 100 (/ 20) (/ 5) 1 - c.
Proof.
  destruct (fd_put_limit_refuted 100 100 (/ 20) (/ 5) 1) as (c & C & C0 & CP & H); try lra; [exact (proj2 textbook_edge)|].
  destruct (nat_above (4 * (C + 1) / c)) as (N & HN). exists (c / 2), N. split; [lra|]. intros sch nt np m Hn Hp VV SS. destruct (H sch nt np (European date_max) VV SS eq_refl) as (p & E & L). exists p. split; [exact E|]. apply Rle_trans with (1 := L).
  assert (P : 0 < 4 * (C + 1) / c) by (apply Rdiv_lt_0_compat; lra). apply le_INR in Hn. apply le_INR in Hp.
  assert (IA : forall j, INR N <= INR j -> / INR j <= c / (4 * (C + 1))). { intros j Hj. apply Rle_trans with (/ INR N); [apply Rinv_le_contravar; lra|]. replace (c / (4 * (C + 1))) with (/ (4 * (C + 1) / c)) by (field; lra). apply Rinv_le_contravar; lra. }
  pose proof (IA nt Hn) as I1. pose proof (IA np Hp) as I2. assert (Q : C * (/ INR nt + / INR np) <= c / 2); [|lra].
  apply Rle_trans with ((C + 1) * (c / (4 * (C + 1)) + c / (4 * (C + 1)))); [|right; field; lra].
  assert (N0 : 0 < / INR nt /\ 0 < / INR np) by (split; apply Rinv_0_lt_compat; lra). apply Rmult_le_compat; lra.
Qed.
Print Assumptions price_below.
Print Assumptions fd_converges.
Print Assumptions fd_limit.
Print Assumptions fd_put_limit_refuted.
