(** Expectations under the standard normal law: comparison, existence by domination,
    and the integrals behind the closed-form option prices. *)
From Coq Require Import Reals List Lra Lia.
From Coquelicot Require Import Coquelicot.
From Verif Require Import Res InterpModel RList StatModel SpecialFns RGen DistModel DistGauss BsmProofs SimMoments.
Import ListNotations.
Open Scope R_scope.

Lemma npdf_nonneg z : 0 <= npdf z.
Proof. left. unfold npdf. apply Rmult_lt_0_compat; [|apply exp_pos]. apply Rinv_0_lt_compat, sqrt_lt_R0. pose proof PI_RGT_0. lra. Qed.

Lemma std_abs_le f g u v : (forall z, Rabs (f z) <= g z) -> std_E f u -> std_E g v -> Rabs u <= v.
Proof.
  intros H A B. unfold std_E in *.
  apply (RInt_gen_norm (V:=R_CompleteNormedModule) (Fa:=Rbar_locally m_infty) (Fb:=Rbar_locally p_infty) (fun z => npdf z * f z) (fun z => npdf z * g z) u v); [| |exact A|exact B].
  - apply Filter_prod with (fun x => x < 0) (fun x => 0 < x); [exists 0; auto|exists 0; auto|]. intros x y Hx Hy. cbn. lra.
  - apply Filter_prod with (fun _ => True) (fun _ => True); try apply filter_true. intros x y _ _ z _. change (Rabs (npdf z * f z) <= npdf z * g z).
    rewrite Rabs_mult, (Rabs_right (npdf z)) by (apply Rle_ge, npdf_nonneg). apply Rmult_le_compat_l; [apply npdf_nonneg|apply H].
Qed.
Lemma std_le f g u v : (forall z, f z <= g z) -> std_E f u -> std_E g v -> u <= v.
Proof.
  intros H A B. pose proof (std_lin _ _ (-1) 1 _ _ A B) as D. cbv beta in D.
  assert (Rabs (-1 * u + 1 * v) <= -1 * u + 1 * v).
  { apply (std_abs_le (fun z => -1 * f z + 1 * g z) (fun z => -1 * f z + 1 * g z)); [|exact D|exact D]. intro z. specialize (H z). rewrite Rabs_right; lra. }
  pose proof (Rabs_pos (-1 * u + 1 * v)). lra.
Qed.

(** domination *)
Lemma std_dominated f D d : (forall z, continuous f z) -> (forall z, continuous D z) -> (forall z, Rabs (f z) <= D z) -> std_E D d ->
  exists e, std_E f e.
Proof.
  intros Cf CD H B. set (F := fun z => npdf z * f z). set (G := fun z => npdf z * D z).
  assert (CF : forall z, continuous F z) by (intro z; apply (continuous_mult npdf f); [apply npdf_cont|apply Cf]).
  assert (CG : forall z, continuous G z) by (intro z; apply (continuous_mult npdf D); [apply npdf_cont|apply CD]).
  assert (IF : forall a b, ex_RInt F a b) by (intros a b; apply (ex_RInt_continuous (V:=R_CompleteNormedModule)); intros; apply CF).
  assert (IG : forall a b, ex_RInt G a b) by (intros a b; apply (ex_RInt_continuous (V:=R_CompleteNormedModule)); intros; apply CG).
  assert (LE : forall a b, Rabs (RInt F a b) <= Rabs (RInt G a b)).
  { assert (LE0 : forall a b, a <= b -> Rabs (RInt F a b) <= Rabs (RInt G a b)).
    { intros a b Hab. apply Rle_trans with (RInt G a b); [|apply Rle_abs]. apply (norm_RInt_le (V:=R_NormedModule) F G a b); [exact Hab| |apply (RInt_correct (V:=R_CompleteNormedModule)), IF|apply (RInt_correct (V:=R_CompleteNormedModule)), IG].
      intros x _. unfold F, G. change (Rabs (npdf x * f x) <= npdf x * D x). rewrite Rabs_mult, (Rabs_right (npdf x)) by (apply Rle_ge, npdf_nonneg). apply Rmult_le_compat_l; [apply npdf_nonneg|apply H]. }
    intros a b. destruct (Rle_dec a b) as [L|L]; [apply LE0, L|].
    rewrite <- (opp_RInt_swap (V:=R_CompleteNormedModule) F) by apply IF. rewrite <- (opp_RInt_swap (V:=R_CompleteNormedModule) G) by apply IG.
    change (Rabs (- RInt F b a) <= Rabs (- RInt G b a)). rewrite !Rabs_Ropp. apply LE0. lra. }
  destruct (proj1 (filterlim_locally_cauchy (U:=R_CompleteSpace) (F:=filter_prod (Rbar_locally m_infty) (Rbar_locally p_infty)) (fun ab => RInt F (fst ab) (snd ab)))) as [e He].
  - intro eps. unfold std_E in B. fold G in B. assert (E4 : 0 < eps / 4) by (destruct eps; simpl; lra).
    destruct (B (ball d (mkposreal _ E4)) (locally_ball d (mkposreal _ E4))) as [P Q HP HQ K].
    assert (K' : forall x y, P x -> Q y -> Rabs (RInt G x y - d) < eps / 4).
    { intros x y Px Qy. destruct (K x y Px Qy) as (w & I & W). cbn [fst snd] in I. apply (is_RInt_unique (V:=R_CompleteNormedModule)) in I. rewrite I. apply W. }
    exists (fun ab => P (fst ab) /\ Q (snd ab)). split; [apply Filter_prod with P Q; auto|].
    intros (a, b) (a', b') [Pa Qb] [Pa' Qb']. cbn [fst snd] in *. change (Rabs (RInt F a' b' - RInt F a b) < eps).
    pose proof (RInt_Chasles (V:=R_CompleteNormedModule) F a' a b' (IF _ _) (IF _ _)) as S1. pose proof (RInt_Chasles (V:=R_CompleteNormedModule) F a b b' (IF _ _) (IF _ _)) as S2.
    change (RInt F a' a + RInt F a b' = RInt F a' b') in S1. change (RInt F a b + RInt F b b' = RInt F a b') in S2.
    pose proof (RInt_Chasles (V:=R_CompleteNormedModule) G a' a b' (IG _ _) (IG _ _)) as T1. pose proof (RInt_Chasles (V:=R_CompleteNormedModule) G a b b' (IG _ _) (IG _ _)) as T2.
    change (RInt G a' a + RInt G a b' = RInt G a' b') in T1. change (RInt G a b + RInt G b b' = RInt G a b') in T2.
    pose proof (LE a' a) as L1. pose proof (LE b b') as L2.
    pose proof (K' a b Pa Qb) as K1. pose proof (K' a b' Pa Qb') as K2. pose proof (K' a' b' Pa' Qb') as K3.
    apply Rabs_def2 in K1, K2, K3.
    assert (A1 : Rabs (RInt G a' a) < eps / 2) by (apply Rabs_def1; lra). assert (A2 : Rabs (RInt G b b') < eps / 2) by (apply Rabs_def1; lra).
    replace (RInt F a' b' - RInt F a b) with (RInt F a' a + RInt F b b') by lra.
    apply Rle_lt_trans with (Rabs (RInt F a' a) + Rabs (RInt F b b')); [apply Rabs_triang|lra].
  - exists e. unfold std_E. intros P HP. specialize (He P HP). unfold filtermap in He. unfold filtermapi. revert He. apply filter_imp. intros ab Hab.
    exists (RInt F (fst ab) (snd ab)). split; [apply (RInt_correct (V:=R_CompleteNormedModule)), IF|exact Hab].
Qed.
Lemma std_const c : std_E (fun _ => c) c.
Proof. apply (std_poly c 0 0 0 0). intro z. ring. Qed.
Lemma std_quad_dom a c : std_E (fun z => a + c * z ^ 2) (a + c).
Proof. apply (std_poly (a + c) 0 (- c) 0 0). intro z. ring. Qed.
Lemma std_quad_exists f c : (forall z, continuous f z) -> (forall z, Rabs (f z) <= c * (1 + z ^ 2)) -> exists e, std_E f e.
Proof.
  intros Cf H. apply (std_dominated f (fun z => c + c * z ^ 2) (c + c)); [exact Cf| |intro z; specialize (H z); lra|apply std_quad_dom].
  intro z. apply (ex_derive_continuous (K:=R_AbsRing) (V:=R_NormedModule) (fun z => c + c * z ^ 2)). auto_derive. exact I.
Qed.

(** reflection *)
Lemma neg_m : filterlim (fun y => -1 * y + 0) (Rbar_locally m_infty) (Rbar_locally p_infty).
Proof. intros P [M H]. exists (- M). intros x Hx. apply H. lra. Qed.
Lemma neg_p : filterlim (fun y => -1 * y + 0) (Rbar_locally p_infty) (Rbar_locally m_infty).
Proof. intros P [M H]. exists (- M). intros x Hx. apply H. lra. Qed.
Lemma std_reflect f e : std_E f e -> std_E (fun z => f (- z)) e.
Proof.
  intro H. unfold std_E in *. apply (is_RInt_gen_swap (V:=R_NormedModule)) in H.
  apply (igen_affine _ _ (Rbar_locally m_infty) (Rbar_locally p_infty) _ (-1) 0 _ neg_m neg_p) in H.
  apply (igen_scal _ _ _ (-1)) in H. change (opp e) with (- e) in H. replace (-1 * - e) with e in H by ring.
  refine (igen_ext _ _ _ _ _ _ H). intro z. cbv beta. replace (-1 * z + 0) with (- z) by ring. rewrite npdf_even. ring.
Qed.
(** half lines *)
Lemma igen_ext_left (f g : R -> R) (a u : R) :
  (forall x, x < a -> f x = g x) -> is_RInt_gen f (Rbar_locally m_infty) (at_point a) u -> is_RInt_gen g (Rbar_locally m_infty) (at_point a) u.
Proof.
  intros E. apply (is_RInt_gen_ext (V:=R_NormedModule)). apply Filter_prod with (fun x => x < a) (fun x => x = a); [exists a; intros; assumption|reflexivity|].
  intros x y Hx -> z [_ Hz]. cbn [fst snd] in Hz. apply E. unfold Rmax in Hz. destruct (Rle_dec x a); lra.
Qed.
Lemma igen_zero_left a : is_RInt_gen (fun _ : R => 0) (Rbar_locally m_infty) (at_point a) 0.
Proof.
  assert (K : is_RInt_gen (fun _ : R => 0) (Rbar_locally m_infty) (at_point a) (0 - 0)); [|rewrite Rminus_0_r in K; exact K].
  apply (igen _ _ (fun _ => 0) (fun _ => 0) (fun _ => True)).
  - intros x _. apply d_const.
  - intros x _. apply continuous_const.
  - apply Filter_prod with (fun _ => True) (fun _ => True); try apply filter_true. intros; exact I.
  - apply filterlim_const.
  - apply filterlim_const.
Qed.
(** a function that vanishes below c and is h above it *)
Lemma std_above (f h A : R -> R) (c lb : R) : (forall z, z < c -> f z = 0) -> (forall z, c < z -> f z = h z) -> (forall z, continuous h z) ->
  (forall z, is_derive A z (npdf z * h z)) -> is_lim A p_infty lb -> std_E f (lb - A c).
Proof.
  intros H0 H1 Ch DA LA. unfold std_E. replace (lb - A c) with (plus 0 (lb - A c)) by (change (0 + (lb - A c) = lb - A c); ring).
  apply (is_RInt_gen_Chasles (V:=R_NormedModule) (fun z => npdf z * f z) c).
  - refine (igen_ext_left _ _ _ _ _ (igen_zero_left c)). intros x Hx. rewrite H0 by exact Hx. ring.
  - refine (igen_ext_from (fun z => npdf z * h z) _ c _ _ _); [intros x Hx; rewrite H1 by exact Hx; reflexivity|].
    apply igen_from; [intros; apply DA| |exact LA]. intros x _. apply (continuous_mult npdf h); [apply npdf_cont|apply Ch].
Qed.

(** ** Averages of the normal density and distribution function *)
Lemma npdf_product a b z : npdf z * npdf (a + b * z) = npdf (a / sqrt (1 + b ^ 2)) * npdf (sqrt (1 + b ^ 2) * z + a * b / sqrt (1 + b ^ 2)).
Proof.
  assert (P : 0 < 1 + b ^ 2) by (pose proof (pow2_ge_0 b); lra). pose proof (sqrt_lt_R0 _ P) as Q. assert (S : sqrt (1 + b ^ 2) * sqrt (1 + b ^ 2) = 1 + b ^ 2) by (apply sqrt_sqrt; lra).
  set (c := sqrt (1 + b ^ 2)) in *. unfold npdf.
  transitivity (/ sqrt (2 * PI) * / sqrt (2 * PI) * (exp (- / 2 * z ^ 2) * exp (- / 2 * (a + b * z) ^ 2))); [ring|]. transitivity (/ sqrt (2 * PI) * / sqrt (2 * PI) * (exp (- / 2 * (a / c) ^ 2) * exp (- / 2 * (c * z + a * b / c) ^ 2))); [|ring].
  rewrite <- !exp_plus. do 2 f_equal.
  assert (E : (a / c) ^ 2 + (c * z + a * b / c) ^ 2 = z ^ 2 + (a + b * z) ^ 2); [|lra].
  replace ((a / c) ^ 2 + (c * z + a * b / c) ^ 2) with (a ^ 2 * (1 + b ^ 2) / (c * c) + c * c * z ^ 2 + 2 * a * b * z) by (field; lra).
  rewrite S. field. lra.
Qed.
Lemma std_npdf a b : std_E (fun z => npdf (a + b * z)) (npdf (a / sqrt (1 + b ^ 2)) / sqrt (1 + b ^ 2)).
Proof.
  assert (P : 0 < 1 + b ^ 2) by (pose proof (pow2_ge_0 b); lra). pose proof (sqrt_lt_R0 _ P) as Q. set (c := sqrt (1 + b ^ 2)) in *.
  pose proof (std_const 1) as H. unfold std_E in *. apply (igen_affine _ _ (Rbar_locally m_infty) (Rbar_locally p_infty) _ c (a * b / c) _ (aff_m c _ Q) (aff_p c _ Q)) in H.
  apply (igen_scal _ _ _ (npdf (a / c) / c)) in H. rewrite Rmult_1_r in H. refine (igen_ext _ _ _ _ _ _ H). intro z. cbv beta. rewrite npdf_product. fold c. field. lra.
Qed.
Lemma npdf_slope x : Rabs (- x * npdf x) <= 1.
Proof.
  rewrite Rabs_mult, Rabs_Ropp, (Rabs_right (npdf x)) by (apply Rle_ge, npdf_nonneg).
  assert (N : npdf x <= exp (- / 2 * x ^ 2)).
  { unfold npdf. rewrite <- (Rmult_1_l (exp _)) at 2. apply Rmult_le_compat_r; [left; apply exp_pos|]. rewrite <- Rinv_1. apply Rinv_le_contravar; [lra|]. rewrite <- sqrt_1. apply sqrt_le_1; pose proof PI2_1; unfold PI2 in *; lra. }
  assert (X : exp (- / 2 * x ^ 2) <= / (1 + x ^ 2 / 2)). { replace (- / 2 * x ^ 2) with (- (x ^ 2 / 2)) by field. apply exp_neg_le. pose proof (pow2_ge_0 x). lra. }
  assert (B : Rabs x <= 1 + x ^ 2 / 2). { pose proof (pow2_ge_0 (Rabs x - 1)) as S. pose proof (pow2_abs x) as S2. pose proof (Rabs_pos x). nra. }
  assert (D : 0 < 1 + x ^ 2 / 2) by (pose proof (pow2_ge_0 x); lra).
  apply Rle_trans with (Rabs x * / (1 + x ^ 2 / 2)); [apply Rmult_le_compat_l; [apply Rabs_pos|lra]|]. apply (Rmult_le_reg_r (1 + x ^ 2 / 2)); [exact D|]. rewrite Rmult_assoc, Rinv_l by lra. lra.
Qed.
Lemma ncdf_taylor x d : Rabs (ncdf (x + d) - ncdf x - d * npdf x) <= d ^ 2.
Proof.
  assert (L : forall y w, Rabs (npdf (y + w) - npdf y) <= Rabs w).
  { intros y w. destruct (MVT_gen npdf y (y + w) (fun z => - z * npdf z)) as (c & _ & E); [intros; apply npdf_derive|intros; apply continuity_pt_filterlim, npdf_cont|].
    rewrite E. replace (y + w - y) with w by ring. rewrite Rabs_mult. pose proof (npdf_slope c). pose proof (Rabs_pos w). nra. }
  destruct (MVT_gen (fun y => ncdf y - (y - x) * npdf x) x (x + d) (fun y => npdf y - npdf x)) as (c & [C1 C2] & E).
  - intros y _. apply (d_sub ncdf (fun y => (y - x) * npdf x)); [apply ncdf_derive|]. auto_derive; [exact I|ring].
  - intros y _. apply continuity_pt_filterlim. apply (ex_derive_continuous (K:=R_AbsRing) (V:=R_NormedModule) (fun y => ncdf y - (y - x) * npdf x)). eexists.
    apply (d_sub ncdf (fun y => (y - x) * npdf x)); [apply ncdf_derive|]. auto_derive; [exact I|reflexivity].
  - replace (ncdf (x + d) - ncdf x - d * npdf x) with ((npdf c - npdf x) * d).
    + rewrite Rabs_mult. specialize (L x (c - x)). replace (x + (c - x)) with c in L by ring.
      assert (Rabs (c - x) <= Rabs d). { unfold Rmin, Rmax in C1, C2. unfold Rabs. destruct (Rle_dec x (x + d)), (Rcase_abs (c - x)), (Rcase_abs d); lra. }
      pose proof (Rabs_pos d). pose proof (pow2_abs d). nra.
    + replace (x + d - x) with d in E by ring. rewrite <- E. ring.
Qed.
Lemma ncdf_cont z : continuous ncdf z.
Proof. apply (ex_derive_continuous (K:=R_AbsRing) (V:=R_NormedModule) ncdf). eexists. apply ncdf_derive. Qed.
Lemma ncdf_affine_cont a b z : continuous (fun z => ncdf (a + b * z)) z.
Proof. apply (continuous_comp (fun z => a + b * z) ncdf); [|apply ncdf_cont]. apply (ex_derive_continuous (K:=R_AbsRing) (V:=R_NormedModule) (fun z => a + b * z)). auto_derive. exact I. Qed.
(** E N(a + bZ) = N(a / sqrt(1 + b^2)) *)
Lemma std_ncdf a b : std_E (fun z => ncdf (a + b * z)) (ncdf (a / sqrt (1 + b ^ 2))).
Proof.
  assert (P : 0 < 1 + b ^ 2) by (pose proof (pow2_ge_0 b); lra). pose proof (sqrt_lt_R0 _ P) as Q. set (c := sqrt (1 + b ^ 2)) in *.
  assert (EX : forall a, exists e, std_E (fun z => ncdf (a + b * z)) e).
  { intro a'. apply (std_quad_exists _ 1); [apply ncdf_affine_cont|]. intro z. pose proof (ncdf_bound (a' + b * z)). pose proof (pow2_ge_0 z). rewrite Rabs_right; lra. }
  set (H := fun a => RInt_gen (V:=R_CompleteNormedModule) (fun z => npdf z * ncdf (a + b * z)) (Rbar_locally m_infty) (Rbar_locally p_infty)).
  assert (HH : forall a, std_E (fun z => ncdf (a + b * z)) (H a)).
  { intro a'. destruct (EX a') as [e He]. unfold H. rewrite (is_RInt_gen_unique (V:=R_CompleteNormedModule) _ _ He). exact He. }
  assert (D : forall a, is_derive H a (npdf (a / c) / c)).
  { intro a'. apply is_derive_Reals. intros eps He. exists (mkposreal eps He). intros d Hd Hs. simpl in Hs.
    assert (B : Rabs (H (a' + d) - H a' - d * (npdf (a' / c) / c)) <= d ^ 2).
    { pose proof (std_lin _ _ 1 (- d) _ _ (std_lin _ _ 1 (-1) _ _ (HH (a' + d)) (HH a')) (std_npdf a' b)) as K. fold c in K.
      replace (H (a' + d) - H a' - d * (npdf (a' / c) / c)) with (1 * (1 * H (a' + d) + -1 * H a') + - d * (npdf (a' / c) / c)) by ring.
      apply (std_abs_le _ (fun _ => d ^ 2) _ _) with (2 := K); [|apply std_const]. intro z. cbv beta. pose proof (ncdf_taylor (a' + b * z) d) as T. replace (a' + d + b * z) with (a' + b * z + d) by ring.
      match goal with |- Rabs ?u <= _ => replace u with (ncdf (a' + b * z + d) - ncdf (a' + b * z) - d * npdf (a' + b * z)) by ring end. exact T. }
    replace ((H (a' + d) - H a') / d - npdf (a' / c) / c) with ((H (a' + d) - H a' - d * (npdf (a' / c) / c)) / d) by (field; split; lra).
    unfold Rdiv at 1. rewrite Rabs_mult, Rabs_Rinv by exact Hd. pose proof (Rabs_pos_lt d Hd) as PD. apply Rle_lt_trans with (d ^ 2 * / Rabs d).
    - apply Rmult_le_compat_r; [left; apply Rinv_0_lt_compat; exact PD|exact B].
    - rewrite <- (pow2_abs d). replace (Rabs d ^ 2 * / Rabs d) with (Rabs d) by (field; lra). exact Hs. }
  assert (D2 : forall a, is_derive (fun a => ncdf (a / c)) a (npdf (a / c) / c)).
  { intro a'. apply (isd_eq _ _ _ _ (d_ncdf (fun a => a / c) a' (/ c) ltac:(auto_derive; [lra|field; lra]))). reflexivity. }
  assert (S0 : H 0 = / 2).
  { pose proof (HH 0) as K. pose proof (std_reflect _ _ K) as K2. cbv beta in K2. pose proof (std_lin _ _ 1 1 _ _ K K2) as K3.
    assert (1 * H 0 + 1 * H 0 = 1); [|lra]. apply (std_unique _ _ _ K3). refine (std_ext _ _ _ _ (std_const 1)). intro z. cbv beta. replace (0 + b * - z) with (- (0 + b * z)) by ring. rewrite ncdf_sym. ring. }
  assert (E : H a = ncdf (a / c)).
  { assert (K : forall a, is_derive (fun a => H a - ncdf (a / c)) a 0). { intro a'. apply (isd_eq _ _ _ _ (d_sub _ _ _ _ _ (D a') (D2 a'))). ring. }
    destruct (MVT_gen (fun a => H a - ncdf (a / c)) 0 a (fun _ => 0)) as (w & _ & W); [intros; apply K| |].
    - intros x _. apply continuity_pt_filterlim. apply (ex_derive_continuous (K:=R_AbsRing) (V:=R_NormedModule) (fun a => H a - ncdf (a / c))). eexists. apply K.
    - rewrite S0 in W. replace (0 / c) with 0 in W by (unfold Rdiv; ring). rewrite ncdf_0 in W. lra. }
  rewrite <- E. apply HH.
Qed.
