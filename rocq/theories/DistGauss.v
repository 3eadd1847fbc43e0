(** C51, fourth part: the Gaussian distribution. *)
From Coq Require Import Reals ZArith PeanoNat Bool Lra Lia.
From Coquelicot Require Import Coquelicot.
From Verif Require Import Res InterpModel InterpProofs MatLib StatModel SpecialFns RGen DistModel DistDisc DistPois DistCont.
Open Scope R_scope.

(** the expectation of f exists and is e *)
Definition gauss_E (m v : R) (f : R -> R) (e : R) : Prop :=
  is_RInt_gen (fun x => gaussian_pdf m v x * f x) (Rbar_locally m_infty) (Rbar_locally p_infty) e.

Lemma gpdf_npdf m v x : 0 < v -> gaussian_pdf m v x = npdf ((x - m) / sqrt v) / sqrt v.
Proof.
  intros Hv. pose proof (sqrt_lt_R0 v Hv) as P. unfold gaussian_pdf, npdf. pose proof PI_RGT_0. pose proof sqrt_2PI_pos. rewrite sqrt_mult by lra.
  replace (- / 2 * ((x - m) / sqrt v) ^ 2) with (- (1 / 2) * (x - m) ^ 2 / v); [field; lra|].
  assert (E : v = sqrt v ^ 2) by (rewrite pow2_sqrt; lra). rewrite E at 1. field. lra.
Qed.
Lemma gcdf_ncdf m v x : 0 < v -> gaussian_cdf m v x = ncdf ((x - m) / sqrt v).
Proof. intros Hv. pose proof (sqrt_lt_R0 v Hv) as P. pose proof sqrt2_pos. unfold gaussian_cdf, ncdf. replace (- (x - m) / (sqrt 2 * sqrt v)) with (- ((x - m) / sqrt v) / sqrt 2) by (field; lra). lra. Qed.

(** ** Limits *)
Lemma pow_exp_small k x : 0 < x -> x ^ k * exp (- x) <= INR (fact k) * (INR (S k) * INR (S k)) / x.
Proof.
  intros Hx. pose proof (INR_fact_lt_0 k) as F. pose proof (pois_F_small x k Hx) as S.
  assert (L : pois x k <= pois_F x k). { unfold pois_F. cbn [bs]. assert (0 <= bs k (pois x)) by (apply bs_nonneg; intros; left; apply pois_pos, Hx). lra. }
  unfold pois in L. replace (x ^ k * exp (- x)) with (INR (fact k) * (x ^ k * exp (- x) / INR (fact k))) by (field; lra).
  replace (INR (fact k) * (INR (Datatypes.S k) * INR (Datatypes.S k)) / x) with (INR (fact k) * (INR (Datatypes.S k) * INR (Datatypes.S k) / x)) by (field; lra).
  apply Rmult_le_compat_l; lra.
Qed.
Lemma tail_bound k z : 2 <= Rabs z -> Rabs (z ^ k * npdf z) <= INR (fact k) * (INR (S k) * INR (S k)) / Rabs z.
Proof.
  intros Hz. eapply Rle_trans; [|apply (pow_exp_small k (Rabs z)); lra]. rewrite Rabs_mult, <- RPow_abs. apply Rmult_le_compat_l; [apply pow_le, Rabs_pos|].
  rewrite Rabs_right by (left; apply npdf_pos). unfold npdf. assert (S : 1 <= sqrt (2 * PI)).
  { rewrite <- sqrt_1 at 1. apply sqrt_le_1_alt. pose proof PI_RGT_0. pose proof PI2_1. unfold PI2 in *. lra. }
  assert (I : / sqrt (2 * PI) <= 1) by (rewrite <- Rinv_1; apply Rinv_le_contravar; lra). assert (0 < / sqrt (2 * PI)) by (apply Rinv_0_lt_compat; lra).
  assert (E : exp (- / 2 * z ^ 2) <= exp (- Rabs z)).
  { assert (Q : - / 2 * z ^ 2 <= - Rabs z) by (rewrite <- pow2_abs; nra). destruct Q as [Q|Q]; [left; apply exp_increasing, Q|rewrite Q; lra]. }
  pose proof (exp_pos (- / 2 * z ^ 2)). nra.
Qed.
Lemma tail_p k : is_lim (fun z => z ^ k * npdf z) p_infty 0.
Proof.
  set (K := INR (fact k) * (INR (S k) * INR (S k))). apply (is_lim_le_le_loc (fun z => - (K * / z)) (fun z => K * / z)).
  - exists 2. intros z Hz. apply Rabs_le_between. replace (K * / z) with (K / Rabs z) by (rewrite Rabs_right by lra; reflexivity). apply tail_bound. rewrite Rabs_right; lra.
  - replace (Finite 0) with (Rbar_opp (Rbar_mult K (Rbar_inv p_infty))) by (simpl; f_equal; ring). apply is_lim_opp, is_lim_scal_l, is_lim_inv; [apply is_lim_id|discriminate].
  - replace (Finite 0) with (Rbar_mult K (Rbar_inv p_infty)) by (simpl; f_equal; ring). apply is_lim_scal_l, is_lim_inv; [apply is_lim_id|discriminate].
Qed.
Lemma tail_m k : is_lim (fun z => z ^ k * npdf z) m_infty 0.
Proof.
  set (K := INR (fact k) * (INR (S k) * INR (S k))). apply (is_lim_le_le_loc (fun z => K * / z) (fun z => - (K * / z))).
  - exists (-2). intros z Hz. assert (B : - (K / Rabs z) <= z ^ k * npdf z <= K / Rabs z) by (apply Rabs_le_between, tail_bound; rewrite Rabs_left; lra).
    rewrite Rabs_left in B by lra. replace (K / - z) with (- (K * / z)) in B by (field; lra). lra.
  - replace (Finite 0) with (Rbar_mult K (Rbar_inv m_infty)) by (simpl; f_equal; ring). apply is_lim_scal_l, is_lim_inv; [apply is_lim_id|discriminate].
  - replace (Finite 0) with (Rbar_opp (Rbar_mult K (Rbar_inv m_infty))) by (simpl; f_equal; ring). apply is_lim_opp, is_lim_scal_l, is_lim_inv; [apply is_lim_id|discriminate].
Qed.
Lemma ncdf_lim_p : is_lim ncdf p_infty 1.
Proof.
  apply (is_lim_ext (fun x => / 2 + / 2 * erf (/ sqrt 2 * x))).
  { intros x. unfold ncdf, erfc. replace (- x / sqrt 2) with (- (/ sqrt 2 * x)) by (unfold Rdiv; ring). rewrite erf_odd. match goal with |- ?u = ?v => change (@eq R u v) end. field. }
  replace (Finite 1) with (Finite (/ 2 + / 2 * 1)) by (f_equal; field).
  apply is_lim_plus'; [apply is_lim_const|]. replace (Finite (/ 2 * 1)) with (Rbar_mult (/ 2) 1) by reflexivity. apply is_lim_scal_l. apply (is_lim_comp erf (fun x => / sqrt 2 * x) p_infty 1 p_infty); [apply erf_lim_p| |exists 0; discriminate].
  pose proof (Rinv_0_lt_compat _ sqrt2_pos) as P. replace p_infty with (Rbar_mult (/ sqrt 2) p_infty) at 2; [apply is_lim_scal_l, is_lim_id|]. simpl.
  destruct (Rle_dec 0 (/ sqrt 2)) as [H|]; [destruct (Rle_lt_or_eq_dec 0 (/ sqrt 2) H); [reflexivity|lra]|lra].
Qed.
Lemma ncdf_lim_m : is_lim ncdf m_infty 0.
Proof.
  apply (is_lim_ext (fun x => 1 + - ncdf (- x))). { intros x. rewrite ncdf_sym. match goal with |- ?u = ?v => change (@eq R u v) end. ring. }
  replace (Finite 0) with (Finite (1 + - (1))) by (f_equal; ring). apply is_lim_plus'; [apply is_lim_const|]. replace (Finite (- (1))) with (Rbar_opp 1) by reflexivity. apply is_lim_opp.
  apply (is_lim_comp ncdf (fun x => - x) m_infty 1 p_infty); [apply ncdf_lim_p| |exists 0; discriminate].
  replace p_infty with (Rbar_opp m_infty) by reflexivity. apply is_lim_opp, is_lim_id.
Qed.

(** ** Moments of the standard density *)
Definition std_E (f : R -> R) (e : R) : Prop := is_RInt_gen (fun z => npdf z * f z) (Rbar_locally m_infty) (Rbar_locally p_infty) e.
Lemma npdf_cont z : continuous npdf z.
Proof. apply (ex_derive_continuous (K:=R_AbsRing) (V:=R_NormedModule)). eexists. apply npdf_derive. Qed.
(** antiderivative c0 ncdf + (c1 + c2 z + c3 z^2 + c4 z^3) npdf *)
Lemma std_poly c0 c1 c2 c3 c4 f : (forall z, f z = (c0 + c2) + (- c1 + 2 * c3) * z + (- c2 + 3 * c4) * z ^ 2 - c3 * z ^ 3 - c4 * z ^ 4) -> std_E f c0.
Proof.
  intros Hf. set (F := fun z => c0 * ncdf z + (c1 * (z ^ 0 * npdf z) + (c2 * (z ^ 1 * npdf z) + (c3 * (z ^ 2 * npdf z) + c4 * (z ^ 3 * npdf z))))).
  assert (LP : is_lim F p_infty c0).
  { replace (Finite c0) with (Finite (c0 * 1 + (c1 * 0 + (c2 * 0 + (c3 * 0 + c4 * 0))))) by (f_equal; ring). unfold F.
    repeat apply is_lim_plus'.
    all: match goal with |- is_lim _ _ (Finite (?c * ?d)) => replace (Finite (c * d)) with (Rbar_mult c d) by reflexivity end; apply is_lim_scal_l; first [apply ncdf_lim_p | apply tail_p]. }
  assert (LM : is_lim F m_infty 0).
  { replace (Finite 0) with (Finite (c0 * 0 + (c1 * 0 + (c2 * 0 + (c3 * 0 + c4 * 0))))) by (f_equal; ring). unfold F.
    repeat apply is_lim_plus'.
    all: match goal with |- is_lim _ _ (Finite (?c * ?d)) => replace (Finite (c * d)) with (Rbar_mult c d) by reflexivity end; apply is_lim_scal_l; first [apply ncdf_lim_m | apply tail_m]. }
  assert (DF : forall z, is_derive F z (npdf z * f z)).
  { intros z. unfold F. pose proof (ncdf_derive z) as D1. pose proof (npdf_derive z) as D2. auto_derive.
    - repeat split; try (exists (npdf z); exact D1); exists (- z * npdf z); exact D2.
    - assert (E1 : Derive (fun x : R => ncdf x) z = npdf z) by (apply is_derive_unique; exact D1). assert (E2 : Derive (fun x : R => npdf x) z = - z * npdf z) by (apply is_derive_unique; exact D2). rewrite E1, E2, Hf. match goal with |- ?u = ?v => change (@eq R u v) end. ring. }
  replace c0 with (c0 - 0) by ring. unfold std_E. refine (igen_line F _ 0 c0 DF _ LM LP).
  intros z. apply continuous_ext with (fun z => npdf z * ((c0 + c2) + (- c1 + 2 * c3) * z + (- c2 + 3 * c4) * z ^ 2 - c3 * z ^ 3 - c4 * z ^ 4)). { intros y. rewrite Hf. reflexivity. }
  apply (continuous_mult (K:=R_AbsRing)); [apply npdf_cont|cont].
Qed.

(** ** Oscillating moments: E cos(t Z + c) = exp(-t^2/2) cos c *)
Definition ok (c t z : R) : R := npdf z * cos (t * z + c).
Lemma npdf_2d t z : continuity_2d_pt (fun _ w => npdf w) t z.
Proof.
  apply (continuity_1d_2d_pt_comp npdf (fun u v => v)); [|apply continuity_2d_pt_id2]. apply continuity_pt_filterlim. apply npdf_cont.
Qed.
Lemma ok_cont c t z : continuous (ok c t) z.
Proof. unfold ok. apply (continuous_mult (K:=R_AbsRing)); [apply npdf_cont|cont]. Qed.
Lemma ok_int c t a b : ex_RInt (ok c t) a b.
Proof. apply (ex_RInt_continuous (V:=R_CompleteNormedModule)). intros; apply ok_cont. Qed.
Lemma os_derive c t z : is_derive (fun w => npdf w * sin (t * w + c)) z (- z * npdf z * sin (t * z + c) + t * ok c t z).
Proof.
  pose proof (npdf_derive z) as D. auto_derive; [repeat split; exists (- z * npdf z); exact D|].
  assert (E : Derive (fun x : R => npdf x) z = - z * npdf z) by (apply is_derive_unique; exact D). rewrite E. unfold ok. match goal with |- ?u = ?v => change (@eq R u v) end. ring.
Qed.
Lemma osc_derive c a b t : is_derive (fun t => RInt (ok c t) a b) t (npdf b * sin (t * b + c) - npdf a * sin (t * a + c) - t * RInt (ok c t) a b).
Proof.
  assert (D : forall u z, is_derive (fun u => ok c u z) u (- z * npdf z * sin (u * z + c))).
  { intros u z. unfold ok. generalize (npdf z). intros n. auto_derive; [exact I|]. match goal with |- ?u = ?v => change (@eq R u v) end. ring. }
  assert (CD : forall z, continuous (fun z => - z * npdf z * sin (t * z + c)) z).
  { intros z. apply (continuous_mult (K:=R_AbsRing) (fun z => - z * npdf z)); [|cont]. apply (continuous_mult (K:=R_AbsRing) (fun z => - z)); [cont|apply npdf_cont]. }
  replace (npdf b * sin (t * b + c) - npdf a * sin (t * a + c) - t * RInt (ok c t) a b) with (RInt (fun z => Derive (fun u => ok c u z) t) a b).
  - apply (is_derive_RInt_param (ok c) a b t).
    + apply filter_forall. intros y z _. eexists. apply D.
    + intros z _. apply (continuity_2d_pt_ext (fun u v => (- v * npdf v) * sin (u * v + c))). { intros u v. symmetry. apply is_derive_unique, D. }
      apply continuity_2d_pt_mult; [apply continuity_2d_pt_mult; [apply continuity_2d_pt_opp, continuity_2d_pt_id2|apply npdf_2d]|].
      apply (continuity_1d_2d_pt_comp sin (fun u v => u * v + c)); [apply derivable_continuous_pt, derivable_pt_sin|].
      apply continuity_2d_pt_plus; [apply continuity_2d_pt_mult; [apply continuity_2d_pt_id1|apply continuity_2d_pt_id2]|apply continuity_2d_pt_const].
    + apply filter_forall. intros y. apply ok_int.
  - rewrite (RInt_ext _ (fun z => - z * npdf z * sin (t * z + c))) by (intros z _; apply is_derive_unique, D).
    assert (EI : ex_RInt (fun z => - z * npdf z * sin (t * z + c)) a b) by (apply (ex_RInt_continuous (V:=R_CompleteNormedModule)); intros; apply CD).
    pose proof (is_RInt_derive (V:=R_CompleteNormedModule) (fun w => npdf w * sin (t * w + c)) (fun z => - z * npdf z * sin (t * z + c) + t * ok c t z) a b) as Q.
    assert (Q2 : is_RInt (fun z => - z * npdf z * sin (t * z + c) + t * ok c t z) a b (minus (npdf b * sin (t * b + c)) (npdf a * sin (t * a + c)))).
    { apply Q; intros z _; [apply os_derive|]. apply (continuous_plus (V:=R_NormedModule)); [apply CD|]. apply (continuous_scal_r (V:=R_NormedModule) t). apply ok_cont. }
    apply (is_RInt_unique (V:=R_CompleteNormedModule)) in Q2.
    pose proof (RInt_plus (V:=R_CompleteNormedModule) (fun z => - z * npdf z * sin (t * z + c)) (fun z => t * ok c t z) a b EI (ex_RInt_scal (V:=R_NormedModule) _ a b t (ok_int c t a b))) as Q3.
    pose proof (RInt_scal (V:=R_CompleteNormedModule) (ok c t) a b t (ok_int c t a b)) as Q4.
    unfold plus, minus, scal, opp in *. simpl in *. unfold mult in *. simpl in *. unfold plus in *. simpl in *. rewrite Q3 in Q2. rewrite Q4 in Q2.
    match goal with |- ?u = ?v => change (@eq R u v) end. lra.
Qed.
Lemma osc_bound c a b t : Rabs (RInt (ok c t) a b - exp (- (t ^ 2 / 2)) * (cos c * (ncdf b - ncdf a))) <= Rabs t * (npdf a + npdf b).
Proof.
  set (F := fun t => exp (t ^ 2 / 2) * RInt (ok c t) a b).
  assert (DF : forall s, is_derive F s (exp (s ^ 2 / 2) * (npdf b * sin (s * b + c) - npdf a * sin (s * a + c)))).
  { intros s. unfold F. replace (exp (s ^ 2 / 2) * (npdf b * sin (s * b + c) - npdf a * sin (s * a + c))) with
      (s * exp (s ^ 2 / 2) * RInt (ok c s) a b + exp (s ^ 2 / 2) * (npdf b * sin (s * b + c) - npdf a * sin (s * a + c) - s * RInt (ok c s) a b)) by ring.
    apply (is_derive_mult (K:=R_AbsRing) (fun t => exp (t ^ 2 / 2)) (fun t => RInt (ok c t) a b)); [|apply osc_derive|intros; apply Rmult_comm].
    auto_derive; [exact I|]. match goal with |- ?u = ?v => change (@eq R u v) end. change (s * (s * 1) * / 2) with (s ^ 2 / 2). field. }
  assert (F0 : F 0 = cos c * (ncdf b - ncdf a)).
  { unfold F. replace (0 ^ 2 / 2) with 0 by field. rewrite exp_0, Rmult_1_l. rewrite (RInt_ext _ (fun z => cos c * npdf z)).
    - apply (is_RInt_unique (V:=R_CompleteNormedModule)). replace (cos c * (ncdf b - ncdf a)) with (minus (cos c * ncdf b) (cos c * ncdf a)) by (unfold minus, plus, opp; simpl; ring).
      apply (is_RInt_derive (V:=R_CompleteNormedModule) (fun z => cos c * ncdf z) (fun z => cos c * npdf z)); intros z _; [apply (is_derive_scal ncdf), ncdf_derive|].
      apply (continuous_scal_r (V:=R_NormedModule) (cos c)), npdf_cont.
    - intros z _. unfold ok. rewrite Rmult_0_l, Rplus_0_l. apply Rmult_comm. }
  destruct (MVT_gen F 0 t (fun s => exp (s ^ 2 / 2) * (npdf b * sin (s * b + c) - npdf a * sin (s * a + c)))) as (s & Hs & E).
  { intros s _. apply DF. } { intros s _. apply derivable_continuous_pt. exists (exp (s ^ 2 / 2) * (npdf b * sin (s * b + c) - npdf a * sin (s * a + c))). apply is_derive_Reals, DF. }
  assert (BS : s ^ 2 <= t ^ 2) by (unfold Rmin, Rmax in Hs; destruct (Rle_dec 0 t); nra).
  rewrite F0 in E. unfold F in E. pose proof (exp_pos (- (t ^ 2 / 2))) as P1. pose proof (exp_pos (t ^ 2 / 2)) as P2.
  assert (I : exp (- (t ^ 2 / 2)) * exp (t ^ 2 / 2) = 1) by (rewrite <- exp_plus, Rplus_opp_l; apply exp_0).
  replace (RInt (ok c t) a b - exp (- (t ^ 2 / 2)) * (cos c * (ncdf b - ncdf a))) with
    (exp (- (t ^ 2 / 2)) * (exp (s ^ 2 / 2) * (npdf b * sin (s * b + c) - npdf a * sin (s * a + c)) * (t - 0))).
  2:{ rewrite <- E. replace (exp (- (t ^ 2 / 2)) * (exp (t ^ 2 / 2) * RInt (ok c t) a b - cos c * (ncdf b - ncdf a))) with (exp (- (t ^ 2 / 2)) * exp (t ^ 2 / 2) * RInt (ok c t) a b - exp (- (t ^ 2 / 2)) * (cos c * (ncdf b - ncdf a))) by ring. rewrite I. ring. }
  rewrite Rminus_0_r, !Rabs_mult, (Rabs_right (exp (- (t ^ 2 / 2)))), (Rabs_right (exp (s ^ 2 / 2))) by (left; apply exp_pos).
  assert (E1 : exp (- (t ^ 2 / 2)) * exp (s ^ 2 / 2) <= 1).
  { rewrite <- exp_plus. rewrite <- exp_0. destruct (Req_dec (- (t ^ 2 / 2) + s ^ 2 / 2) 0) as [->|]; [lra|]. left. apply exp_increasing. lra. }
  assert (E2 : Rabs (npdf b * sin (s * b + c) - npdf a * sin (s * a + c)) <= npdf a + npdf b).
  { unfold Rminus. eapply Rle_trans; [apply Rabs_triang|]. rewrite Rabs_Ropp, !Rabs_mult, !(Rabs_right (npdf _)) by (left; apply npdf_pos).
    pose proof (npdf_pos a). pose proof (npdf_pos b). assert (Rabs (sin (s * b + c)) <= 1) by (apply Rabs_le, SIN_bound). assert (Rabs (sin (s * a + c)) <= 1) by (apply Rabs_le, SIN_bound). nra. }
  pose proof (Rabs_pos t). pose proof (Rabs_pos (npdf b * sin (s * b + c) - npdf a * sin (s * a + c))). assert (0 <= exp (- (t ^ 2 / 2)) * exp (s ^ 2 / 2)) by (left; apply Rmult_lt_0_compat; apply exp_pos).
  rewrite <- Rmult_assoc, <- Rmult_assoc. rewrite (Rmult_comm (Rabs t)). apply Rmult_le_compat_r; [assumption|]. nra.
Qed.
Lemma std_osc c t : std_E (fun z => cos (t * z + c)) (exp (- (t ^ 2 / 2)) * cos c).
Proof.
  intros P [eps HP]. unfold filtermapi.
  assert (EP := cond_pos eps). set (d := eps / (2 * (Rabs t + 2))). pose proof (Rabs_pos t) as TP.
  assert (D : 0 < d) by (apply Rdiv_lt_0_compat; lra).
  assert (TP1 := tail_p 0). assert (TM1 := tail_m 0). assert (NP := ncdf_lim_p). assert (NM := ncdf_lim_m).
  apply (is_lim_spec) in TP1, TM1, NP, NM. simpl in TP1, TM1, NP, NM.
  destruct (TP1 (mkposreal d D)) as [M1 H1]. destruct (TM1 (mkposreal d D)) as [M2 H2]. destruct (NP (mkposreal d D)) as [M3 H3]. destruct (NM (mkposreal d D)) as [M4 H4]. simpl in *.
  apply Filter_prod with (fun a => a < Rmin M2 M4) (fun b => Rmax M1 M3 < b).
  - exists (Rmin M2 M4). auto.
  - exists (Rmax M1 M3). auto.
  - intros a b Ha Hb. exists (RInt (ok c t) a b). cbn [fst snd]. split; [exact (RInt_correct (V:=R_CompleteNormedModule) (ok c t) a b (ok_int c t a b))|]. apply HP.
    pose proof (Rmin_l M2 M4). pose proof (Rmin_r M2 M4). pose proof (Rmax_l M1 M3). pose proof (Rmax_r M1 M3).
    specialize (H1 b ltac:(lra)). specialize (H2 a ltac:(lra)). specialize (H3 b ltac:(lra)). specialize (H4 a ltac:(lra)).
    pose proof (npdf_pos a). pose proof (npdf_pos b). pose proof (ncdf_bound a). pose proof (ncdf_bound b).
    replace (1 * npdf b - 0) with (npdf b) in H1 by ring. replace (1 * npdf a - 0) with (npdf a) in H2 by ring. rewrite Rabs_right in H1, H2 by lra.
    rewrite Rabs_left1 in H3 by lra. rewrite Rabs_right in H4 by lra.
    change (Rabs (RInt (ok c t) a b - exp (- (t ^ 2 / 2)) * cos c) < eps).
    pose proof (osc_bound c a b t) as B. set (e := exp (- (t ^ 2 / 2))) in *. assert (E : 0 < e <= 1).
    { split; [apply exp_pos|]. unfold e. rewrite <- exp_0. destruct (Req_dec t 0) as [->|NZ]; [replace (- (0 ^ 2 / 2)) with 0 by field; lra|]. left. apply exp_increasing. pose proof (pow2_gt_0 t NZ). lra. }
    clearbody e. replace (RInt (ok c t) a b - e * cos c) with ((RInt (ok c t) a b - e * (cos c * (ncdf b - ncdf a))) + e * cos c * (ncdf b - ncdf a - 1)) by ring.
    eapply Rle_lt_trans; [apply Rabs_triang|]. assert (Q : Rabs (e * cos c * (ncdf b - ncdf a - 1)) <= 1 + ncdf a - ncdf b).
    { rewrite !Rabs_mult, (Rabs_right e) by lra. rewrite (Rabs_left1 (ncdf b - ncdf a - 1)) by lra. assert (Rabs (cos c) <= 1) by (apply Rabs_le, COS_bound). pose proof (Rabs_pos (cos c)).
      assert (e * Rabs (cos c) <= 1) by nra. nra. }
    assert (Z : d * (2 * (Rabs t + 2)) = eps) by (unfold d; field; lra). clearbody d.
    assert (W : Rabs t * (npdf a + npdf b) <= Rabs t * (2 * d)) by (apply Rmult_le_compat_l; lra).
    eapply Rle_lt_trans; [apply Rplus_le_compat; [exact B|exact Q]|]. lra.
Qed.

(** ** Transfer to the returned density *)
Lemma aff_p u v : 0 < u -> filterlim (fun y => u * y + v) (Rbar_locally p_infty) (Rbar_locally p_infty).
Proof.
  intros Hu P [M HM]. exists ((M - v) / u). intros x Hx. apply HM. apply (Rmult_lt_compat_r u) in Hx; [|exact Hu]. unfold Rdiv in Hx. rewrite Rmult_assoc, Rinv_l, Rmult_1_r in Hx by lra. lra.
Qed.
Lemma aff_m u v : 0 < u -> filterlim (fun y => u * y + v) (Rbar_locally m_infty) (Rbar_locally m_infty).
Proof.
  intros Hu P [M HM]. exists ((M - v) / u). intros x Hx. apply HM. apply (Rmult_lt_compat_r u) in Hx; [|exact Hu]. unfold Rdiv in Hx. rewrite Rmult_assoc, Rinv_l, Rmult_1_r in Hx by lra. lra.
Qed.
Lemma gauss_std m v f e : 0 < v -> std_E (fun z => f (m + sqrt v * z)) e -> gauss_E m v f e.
Proof.
  intros Hv H. pose proof (sqrt_lt_R0 v Hv) as P. unfold std_E in H.
  pose proof (igen_affine _ _ (Rbar_locally m_infty) (Rbar_locally p_infty) _ (/ sqrt v) (- m / sqrt v) e (aff_m _ _ (Rinv_0_lt_compat _ P)) (aff_p _ _ (Rinv_0_lt_compat _ P)) H) as Q.
  refine (igen_ext _ _ _ _ _ _ Q). intros x. cbv beta. rewrite gpdf_npdf by exact Hv.
  replace (m + sqrt v * (/ sqrt v * x + - m / sqrt v)) with x by (field; lra). replace (/ sqrt v * x + - m / sqrt v) with ((x - m) / sqrt v) by (field; lra). unfold Rdiv. ring.
Qed.
Lemma gauss_mass m v : 0 < v -> gauss_E m v (fun _ => 1) 1.
Proof. intros Hv. apply gauss_std; [exact Hv|]. apply (std_poly 1 0 0 0 0). intros; ring. Qed.

(** Mass, mean, variance, skewness, kurtosis, entropy, mgf and cf of the Gaussian
    distribution are those of its density. *)
Theorem gaussian_moments : forall m v, gaussian_new m v = Ret (m, v) ->
  let mu := gaussian_mean m v in
  gauss_E m v (fun _ => 1) 1 /\ gauss_E m v (fun x => x) mu /\ gauss_E m v (fun x => (x - mu) ^ 2) (gaussian_variance m v) /\
  gauss_E m v (fun x => (x - mu) ^ 3) (gaussian_skewness m v) /\
  gauss_E m v (fun x => (x - mu) ^ 4) ((gaussian_kurtosis m v + 3) * gaussian_variance m v ^ 2) /\
  gauss_E m v (fun x => - ln (gaussian_pdf m v x)) (gaussian_entropy m v) /\
  (forall t, gauss_E m v (fun x => exp (t * x)) (gaussian_mgf m v t)) /\
  (forall t, gauss_E m v (fun x => cos (t * x)) (fst (gaussian_cf m v t)) /\ gauss_E m v (fun x => sin (t * x)) (snd (gaussian_cf m v t))).
Proof.
  intros m v H. unfold gaussian_new in H. destruct (Rltb_spec 0 v) as [Hv|]; [|discriminate]. clear H. cbv zeta.
  unfold gaussian_mean, gaussian_variance, gaussian_skewness, gaussian_kurtosis.
  pose proof (sqrt_lt_R0 v Hv) as P. assert (SQ : v = sqrt v * sqrt v) by (rewrite sqrt_sqrt; lra).
  split; [apply gauss_mass, Hv|]. split; [|split; [|split; [|split; [|split; [|split]]]]].
  - apply gauss_std; [exact Hv|]. apply (std_poly m (- sqrt v) 0 0 0). intros; ring.
  - apply gauss_std; [exact Hv|]. apply (std_poly v 0 (- v) 0 0). intros z. replace (m + sqrt v * z - m) with (sqrt v * z) by ring. rewrite SQ at 2 3 4. ring.
  - apply gauss_std; [exact Hv|]. apply (std_poly 0 (- 2 * sqrt v ^ 3) 0 (- sqrt v ^ 3) 0). intros z. replace (m + sqrt v * z - m) with (sqrt v * z) by ring. ring.
  - apply gauss_std; [exact Hv|]. replace ((0 + 3) * v ^ 2) with (3 * v ^ 2) by ring. apply (std_poly (3 * v ^ 2) 0 (- 3 * v ^ 2) 0 (- v ^ 2)). intros z. replace (m + sqrt v * z - m) with (sqrt v * z) by ring.
    rewrite Rpow_mult_distr. replace (sqrt v ^ 4) with (v ^ 2) by (rewrite SQ at 1; ring). ring.
  - apply gauss_std; [exact Hv|]. unfold gaussian_entropy. apply (std_poly _ 0 (- / 2) 0 0). intros z.
    pose proof PI_RGT_0. unfold gaussian_pdf. assert (V2 : 0 < 2 * PI * v) by (apply Rmult_lt_0_compat; lra). pose proof (sqrt_lt_R0 _ V2) as S2.
    rewrite ln_mult, ln_exp, ln_Rinv by (try apply exp_pos; try apply Rinv_0_lt_compat; assumption).
    replace (- (1 / 2) * (m + sqrt v * z - m) ^ 2 / v) with (- (1 / 2) * z ^ 2) by (replace ((m + sqrt v * z - m) ^ 2) with (v * z ^ 2) by (rewrite SQ at 1; ring); field; lra).
    replace (ln (2 * PI * v)) with (2 * ln (sqrt (2 * PI * v))); [lra|]. rewrite <- (sqrt_sqrt (2 * PI * v)) at 2 by lra. rewrite ln_mult by assumption. ring.
  - intros t. unfold gauss_E. refine (igen_ext _ _ (fun x => gaussian_mgf m v t * (gaussian_pdf (m + v * t) v x * 1)) _ _ _ _).
    + intros x. unfold gaussian_mgf, gaussian_pdf. rewrite Rmult_1_r.
      transitivity (/ sqrt (2 * PI * v) * (exp (m * t + v * t * t / 2) * exp (- (1 / 2) * (x - (m + v * t)) ^ 2 / v))); [ring|].
      rewrite <- exp_plus. rewrite (Rmult_assoc (/ sqrt (2 * PI * v))), <- exp_plus. do 2 f_equal. field. lra.
    + assert (G1 : gaussian_mgf m v t * 1 = gaussian_mgf m v t) by ring. rewrite <- G1 at 1. exact (igen_scal (Rbar_locally m_infty) (Rbar_locally p_infty) _ (gaussian_mgf m v t) 1 (gauss_mass (m + v * t) v Hv)).
  - intros t. assert (CF : gaussian_cf m v t = (exp (- ((t * sqrt v) ^ 2 / 2)) * cos (t * m), exp (- ((t * sqrt v) ^ 2 / 2)) * cos (t * m - PI / 2))).
    { unfold gaussian_cf, cexp, Cminus, Cmult, Cplus, Copp, RtoC, it. cbn [fst snd]. replace (sin (0 * 0 + 1 * (m * t) + - 0)) with (cos (t * m - PI / 2)).
      - replace ((t * sqrt v) ^ 2) with (t ^ 2 * v) by (rewrite SQ at 1; ring). f_equal; f_equal; f_equal; field.
      - replace (0 * 0 + 1 * (m * t) + - 0) with (t * m) by ring. rewrite <- cos_neg. replace (- (t * m - PI / 2)) with (PI / 2 - t * m) by ring. rewrite cos_shift. reflexivity. }
    rewrite CF. cbn [fst snd]. split.
    + apply gauss_std; [exact Hv|]. refine (igen_ext _ _ _ _ _ _ (std_osc (t * m) (t * sqrt v))). intros z. cbv beta. do 2 f_equal. ring.
    + apply gauss_std; [exact Hv|]. refine (igen_ext _ _ _ _ _ _ (std_osc (t * m - PI / 2) (t * sqrt v))). intros z. cbv beta. f_equal.
      rewrite <- cos_neg. replace (- (t * sqrt v * z + (t * m - PI / 2))) with (PI / 2 - t * (m + sqrt v * z)) by ring. apply cos_shift.
Qed.
Print Assumptions gaussian_moments.

(** the external inverse error function: a right inverse of erf on (-1, 1) *)
Definition erf_inv_spec (erf_inv : R -> R) : Prop := forall y, -1 < y < 1 -> erf (erf_inv y) = y.
Lemma erf_inj x y : erf x = erf y -> x = y.
Proof. intros E. destruct (Rtotal_order x y) as [L|[L|L]]; [apply erf_increasing in L; lra|exact L|apply erf_increasing in L; lra]. Qed.
Lemma gcdf_derive m v x : 0 < v -> is_derive (gaussian_cdf m v) x (gaussian_pdf m v x).
Proof.
  intros Hv. pose proof (sqrt_lt_R0 v Hv) as P. apply (is_derive_ext (fun x => ncdf ((x - m) / sqrt v))). { intros y. symmetry. apply gcdf_ncdf, Hv. }
  rewrite gpdf_npdf by exact Hv. replace (npdf ((x - m) / sqrt v) / sqrt v) with (/ sqrt v * npdf ((x - m) / sqrt v)) by (unfold Rdiv; ring).
  apply (is_derive_comp ncdf (fun x => (x - m) / sqrt v)); [apply ncdf_derive|]. auto_derive; [lra|]. match goal with |- ?u = ?v => change (@eq R u v) end. field. lra.
Qed.
Lemma gpdf_cont m v x : 0 < v -> continuous (gaussian_pdf m v) x.
Proof. intros Hv. unfold gaussian_pdf. cont. Qed.

(** The distribution function is the integral of the density; the quantile inverts
    it; the median halves the mass; the mode maximises the density. *)
Theorem gaussian_cdf_quantile : forall m v, gaussian_new m v = Ret (m, v) ->
  (forall x, is_RInt_gen (gaussian_pdf m v) (Rbar_locally m_infty) (at_point x) (gaussian_cdf m v x) /\ 0 < gaussian_cdf m v x < 1) /\
  (forall x y, x < y -> gaussian_cdf m v x < gaussian_cdf m v y) /\
  (forall erf_inv p, erf_inv_spec erf_inv -> 0 < p < 1 -> gaussian_cdf m v (gaussian_inv_cdf erf_inv m v p) = p) /\
  (forall erf_inv x, erf_inv_spec erf_inv -> gaussian_inv_cdf erf_inv m v (gaussian_cdf m v x) = x) /\
  gaussian_cdf m v (gaussian_median m v) = 1 / 2 /\
  forall x, gaussian_pdf m v x <= gaussian_pdf m v (gaussian_mode m v) /\ (gaussian_pdf m v x = gaussian_pdf m v (gaussian_mode m v) -> x = gaussian_mode m v).
Proof.
  intros m v H. unfold gaussian_new in H. destruct (Rltb_spec 0 v) as [Hv|]; [|discriminate]. clear H. pose proof (sqrt_lt_R0 v Hv) as P. pose proof sqrt2_pos as P2.
  assert (INV : forall erf_inv p, erf_inv_spec erf_inv -> 0 < p < 1 -> gaussian_cdf m v (gaussian_inv_cdf erf_inv m v p) = p).
  { intros ei p S Hp. unfold gaussian_cdf, gaussian_inv_cdf, erfc. replace (- (m + sqrt 2 * sqrt v * ei (2 * p - 1) - m) / (sqrt 2 * sqrt v)) with (- ei (2 * p - 1)) by (field; lra).
    rewrite erf_odd, S by lra. lra. }
  assert (MON : forall x y, x < y -> gaussian_cdf m v x < gaussian_cdf m v y).
  { intros x y L. rewrite !gcdf_ncdf by exact Hv. apply ncdf_increasing. unfold Rdiv. apply Rmult_lt_compat_r; [apply Rinv_0_lt_compat, P|lra]. }
  split; [|split; [exact MON|split; [exact INV|split; [|split]]]].
  - intros x. split; [|rewrite gcdf_ncdf by exact Hv; apply ncdf_bound]. replace (gaussian_cdf m v x) with (gaussian_cdf m v x - 0) by ring.
    refine (igen _ _ (gaussian_cdf m v) (gaussian_pdf m v) (fun _ => True) 0 (gaussian_cdf m v x) _ _ _ _ _).
    + intros; apply gcdf_derive, Hv.
    + intros; apply gpdf_cont, Hv.
    + apply Filter_prod with (fun _ => True) (fun _ => True); try apply filter_true. intros; exact I.
    + apply (filterlim_ext (fun x => ncdf (/ sqrt v * x + - m / sqrt v))). { intros y. rewrite gcdf_ncdf by exact Hv. f_equal. field. lra. }
      apply (filterlim_comp _ _ _ (fun x => / sqrt v * x + - m / sqrt v) ncdf _ (Rbar_locally m_infty)); [apply aff_m, Rinv_0_lt_compat, P|apply ncdf_lim_m].
    + intros Q [e He]. unfold filtermap, at_point. apply He. apply ball_center.
  - intros ei x S. assert (B : 0 < gaussian_cdf m v x < 1) by (rewrite gcdf_ncdf by exact Hv; apply ncdf_bound).
    pose proof (INV ei _ S B) as E. set (y := gaussian_inv_cdf ei m v (gaussian_cdf m v x)) in *. clearbody y.
    destruct (Rtotal_order y x) as [L|[L|L]]; [apply MON in L; lra|exact L|apply MON in L; lra].
  - unfold gaussian_median. rewrite gcdf_ncdf by exact Hv. replace ((m - m) / sqrt v) with 0 by (field; lra). rewrite ncdf_0. lra.
  - intros x. unfold gaussian_mode, gaussian_pdf. assert (S2 : 0 < / sqrt (2 * PI * v)) by (apply Rinv_0_lt_compat, sqrt_lt_R0; pose proof PI_RGT_0; apply Rmult_lt_0_compat; lra).
    replace (- (1 / 2) * (m - m) ^ 2 / v) with 0 by (field; lra). rewrite exp_0.
    assert (L : x <> m -> exp (- (1 / 2) * (x - m) ^ 2 / v) < 1).
    { intros N. apply Rlt_le_trans with (exp 0); [|rewrite exp_0; lra]. apply exp_increasing. assert (0 < (x - m) ^ 2) by (apply pow2_gt_0; lra). assert (0 < (x - m) ^ 2 / v) by (apply Rdiv_lt_0_compat; assumption). replace (- (1 / 2) * (x - m) ^ 2 / v) with (- (1 / 2) * ((x - m) ^ 2 / v)) by (field; lra). lra. }
    split.
    + destruct (Req_dec x m) as [->|N]; [replace (- (1 / 2) * (m - m) ^ 2 / v) with 0 by (field; lra); rewrite exp_0; lra|specialize (L N); nra].
    + intros E. destruct (Req_dec x m) as [->|N]; [reflexivity|]. specialize (L N). nra.
Qed.
Print Assumptions gaussian_cdf_quantile.

Lemma erf_cont_pt x : continuity_pt erf x.
Proof. apply continuity_pt_filterlim, (ex_derive_continuous (K:=R_AbsRing) (V:=R_NormedModule)). eexists. apply erf_derive. Qed.
Lemma erf_above y : y < 1 -> y < erf (1 + 2 / (1 - y)).
Proof.
  intros H. set (M := 1 + 2 / (1 - y)). assert (Q : 0 < 2 / (1 - y)) by (apply Rdiv_lt_0_compat; lra). assert (HM : 1 < M) by (unfold M; lra).
  pose proof (erf_near_one M ltac:(lra)) as E. assert (X : exp (- M ^ 2) <= / M).
  { rewrite exp_Ropp. apply Rinv_le_contravar; [lra|]. left. apply Rlt_trans with (1 + M ^ 2); [nra|]. apply exp_ineq1. nra. }
  assert (F : 4 / PI < 2). { pose proof PI2_1 as A. unfold PI2 in A. pose proof PI_RGT_0. pose proof PI2_3_2 as B. unfold PI2 in B. apply Rmult_lt_reg_r with PI; [lra|]. unfold Rdiv. rewrite Rmult_assoc, Rinv_l by lra. lra. }
  pose proof PI_RGT_0. assert (0 < 4 / PI) by (apply Rdiv_lt_0_compat; lra). assert (0 < / M) by (apply Rinv_0_lt_compat; lra).
  assert (Z : 2 * / M < 1 - y).
  { apply Rmult_lt_reg_r with M; [lra|]. rewrite Rmult_assoc, Rinv_l by lra. unfold M. replace ((1 - y) * (1 + 2 / (1 - y))) with (1 - y + 2) by (field; lra). lra. }
  pose proof (exp_pos (- M ^ 2)). replace (- M ^ 2) with (- (M ^ 2)) in * by ring. nra.
Qed.
Example erf_inv_exists : exists erf_inv, erf_inv_spec erf_inv.
Proof.
  assert (S : forall y, {x | -1 < y < 1 -> erf x = y}).
  { intros y. destruct (Rlt_dec (-1) y) as [A|A]; [|exists 0; lra]. destruct (Rlt_dec y 1) as [B|B]; [|exists 0; lra].
    destruct (Ranalysis5.IVT_interv (fun x => erf x - y) (- (1 + 2 / (1 - - y))) (1 + 2 / (1 - y))) as [x [_ Hx]].
    - intros a _. apply continuity_pt_minus; [apply erf_cont_pt|apply continuity_pt_const; intros ? ?; reflexivity].
    - assert (0 < 2 / (1 - - y)) by (apply Rdiv_lt_0_compat; lra). assert (0 < 2 / (1 - y)) by (apply Rdiv_lt_0_compat; lra). lra.
    - rewrite erf_odd. pose proof (erf_above (- y) ltac:(lra)). lra.
    - pose proof (erf_above y B). lra.
    - exists x. intros _. lra. }
  exists (fun y => proj1_sig (S y)). intros y Hy. destruct (S y) as [x Hx]. apply Hx, Hy.
Qed.
Example gaussian_case : gaussian_new 1 4 = Ret (1, 4).
Proof. unfold gaussian_new. destruct (Rltb_spec 0 4); [reflexivity|lra]. Qed.
