(** C83: the Heston characteristic functions solve the Heston equation. *)
From Coq Require Import Reals List Bool Lra Lia Psatz.
From Coquelicot Require Import Coquelicot.
From Verif Require Import Res InterpModel InterpProofs RList StatModel StatProps PayoffModel SpecialFns BsmModel BsmProofs BsmProps BachHestonProps.
Import ListNotations.
Open Scope R_scope.

(** ** Derivatives of complex functions of a real variable *)
Definition cderive (F : R -> C) (t : R) (l : C) : Prop :=
  is_derive (fun y => fst (F y)) t (fst l) /\ is_derive (fun y => snd (F y)) t (snd l).
Lemma cd_eq : forall F t a b, cderive F t a -> a = b -> cderive F t b.
Proof. intros F t a b H <-. exact H. Qed.
Lemma cd_ext : forall F G t l, (forall y, F y = G y) -> cderive F t l -> cderive G t l.
Proof. intros F G t l E [H1 H2]. split; [apply (isd_ext (fun y => fst (F y)))|apply (isd_ext (fun y => snd (F y)))]; try assumption; intro y; rewrite E; reflexivity. Qed.
Lemma cd_const : forall c t, cderive (fun _ => c) t (RtoC 0).
Proof. intros. split; apply d_const. Qed.
Lemma cd_id : forall t, cderive (fun y => RtoC y) t (RtoC 1).
Proof. intro t. split; [apply d_id|apply (d_const 0 t)]. Qed.
Lemma cd_plus : forall F G t a b, cderive F t a -> cderive G t b -> cderive (fun y => Cplus (F y) (G y)) t (Cplus a b).
Proof. intros F G t a b [F1 F2] [G1 G2]. split; simpl; apply d_add; assumption. Qed.
Lemma cd_minus : forall F G t a b, cderive F t a -> cderive G t b -> cderive (fun y => Cminus (F y) (G y)) t (Cminus a b).
Proof. intros F G t a b [F1 F2] [G1 G2]. split; [apply (d_sub (fun y => fst (F y)) (fun y => fst (G y)))|apply (d_sub (fun y => snd (F y)) (fun y => snd (G y)))]; assumption. Qed.
Lemma cd_mult : forall F G t a b, cderive F t a -> cderive G t b -> cderive (fun y => Cmult (F y) (G y)) t (Cplus (Cmult a (G t)) (Cmult (F t) b)).
Proof.
  intros F G t a b [F1 F2] [G1 G2]. split.
  - eapply isd_eq; [simpl; apply d_sub; apply d_mul; eassumption|]. simpl. ring.
  - eapply isd_eq; [simpl; apply d_add; apply d_mul; eassumption|]. simpl. ring.
Qed.
Lemma cnz : forall z : C, z <> RtoC 0 -> fst z * fst z + snd z * snd z <> 0.
Proof. intros [x y] H E. simpl in E. apply H. assert (x = 0) by nra. assert (y = 0) by nra. subst. reflexivity. Qed.
Lemma d_quot : forall (f g : R -> R) t a b, is_derive f t a -> is_derive g t b -> g t <> 0 -> is_derive (fun y => f y / g y) t ((a * g t - f t * b) / (g t * g t)).
Proof. intros f g t a b F G N. eapply isd_eq; [apply (is_derive_div f g t a b F G N)|]. field. exact N. Qed.
Lemma d_chain : forall (f g : R -> R) t a b, is_derive f (g t) a -> is_derive g t b -> is_derive (fun y => f (g y)) t (b * a).
Proof. intros f g t a b F G. apply (is_derive_comp f g t a b F G). Qed.
Lemma cd_inv : forall F t a, cderive F t a -> F t <> RtoC 0 -> cderive (fun y => Cinv (F y)) t (Copp (Cdiv a (Cmult (F t) (F t)))).
Proof.
  intros F t a [F1 F2] H. pose proof (cnz _ H) as N.
  assert (D : is_derive (fun y => fst (F y) ^ 2 + snd (F y) ^ 2) t (2 * (fst (F t) * fst a + snd (F t) * snd a))).
  { eapply isd_eq; [apply (isd_ext (fun y => fst (F y) * fst (F y) + snd (F y) * snd (F y))); [intro; ring|apply d_add; apply d_mul; eassumption]|]. cbv beta. ring. }
  assert (N' : fst (F t) ^ 2 + snd (F t) ^ 2 <> 0) by (intro K; apply N; rewrite <- K; ring).
  split.
  - eapply isd_eq; [apply (d_quot (fun y => fst (F y)) (fun y => fst (F y) ^ 2 + snd (F y) ^ 2)); eassumption|].
    destruct (F t) as [x y], a as [p q]. simpl in *. field. split; [|intro K; apply N; rewrite <- K; ring].
    intro K. apply N. assert (E : (x * x + y * y) ^ 2 = 0) by (rewrite <- K; ring). apply Rsqr_0_uniq. unfold Rsqr. rewrite <- E. ring.
  - eapply isd_eq; [apply (d_quot (fun y => - snd (F y)) (fun y => fst (F y) ^ 2 + snd (F y) ^ 2)); [apply d_opp; exact F2|exact D|exact N']|].
    destruct (F t) as [x y], a as [p q]. simpl in *. field. split; [|intro K; apply N; rewrite <- K; ring].
    intro K. apply N. assert (E : (x * x + y * y) ^ 2 = 0) by (rewrite <- K; ring). apply Rsqr_0_uniq. unfold Rsqr. rewrite <- E. ring.
Qed.
Lemma cd_cexp : forall F t a, cderive F t a -> cderive (fun y => cexp (F y)) t (Cmult (cexp (F t)) a).
Proof.
  intros F t a [F1 F2].
  assert (E : is_derive (fun y => exp (fst (F y))) t (exp (fst (F t)) * fst a)).
  { eapply isd_eq; [apply (is_derive_comp exp (fun y => fst (F y)) t (exp (fst (F t))) (fst a)); [apply is_derive_exp|exact F1]|]. unfold scal; simpl; unfold mult; simpl. ring. }
  assert (SN : is_derive (fun y => sin (snd (F y))) t (cos (snd (F t)) * snd a)).
  { eapply isd_eq; [apply (is_derive_comp sin (fun y => snd (F y)) t (cos (snd (F t))) (snd a)); [apply is_derive_sin|exact F2]|]. unfold scal; simpl; unfold mult; simpl. ring. }
  assert (CS : is_derive (fun y => cos (snd (F y))) t (- sin (snd (F t)) * snd a)).
  { eapply isd_eq; [apply (is_derive_comp cos (fun y => snd (F y)) t (- sin (snd (F t))) (snd a)); [apply is_derive_cos|exact F2]|]. unfold scal; simpl; unfold mult; simpl. ring. }
  split.
  - eapply isd_eq; [apply d_mul; [exact E|exact CS]|]. unfold cexp. simpl. ring.
  - eapply isd_eq; [apply d_mul; [exact E|exact SN]|]. unfold cexp. simpl. ring.
Qed.

(** ** The principal logarithm off the negative real axis *)
Definition slit (z : C) : Prop := 0 < sqrt (fst z ^ 2 + snd z ^ 2) + fst z.
Definition clog (z : C) : C := (ln (fst z ^ 2 + snd z ^ 2) / 2, 2 * atan (snd z / (sqrt (fst z ^ 2 + snd z ^ 2) + fst z))).
Lemma slit_norm : forall z, slit z -> 0 < fst z ^ 2 + snd z ^ 2.
Proof.
  intros [x y] H. unfold slit in H. simpl fst in *. simpl snd in *. destruct (Rle_lt_or_eq_dec 0 (x ^ 2 + y ^ 2)) as [L|E]; [nra|exact L|].
  assert (x = 0) by nra. rewrite <- E, sqrt_0 in H. lra.
Qed.
Lemma cd_clog : forall F t a, cderive F t a -> slit (F t) -> cderive (fun y => clog (F y)) t (Cdiv a (F t)).
Proof.
  intros F t a [F1 F2] H. pose proof (slit_norm _ H) as N. unfold slit in H.
  assert (D : is_derive (fun y => fst (F y) ^ 2 + snd (F y) ^ 2) t (2 * (fst (F t) * fst a + snd (F t) * snd a))).
  { eapply isd_eq; [apply (isd_ext (fun y => fst (F y) * fst (F y) + snd (F y) * snd (F y))); [intro; ring|apply d_add; apply d_mul; eassumption]|]. cbv beta. ring. }
  set (m := sqrt (fst (F t) ^ 2 + snd (F t) ^ 2)) in *.
  assert (MM : m * m = fst (F t) ^ 2 + snd (F t) ^ 2) by (apply sqrt_sqrt; lra).
  assert (MP : 0 < m) by (apply sqrt_lt_R0; exact N).
  assert (S : is_derive (fun y => sqrt (fst (F y) ^ 2 + snd (F y) ^ 2)) t ((fst (F t) * fst a + snd (F t) * snd a) / m)).
  { eapply isd_eq; [apply (d_chain sqrt (fun y => fst (F y) ^ 2 + snd (F y) ^ 2) t (/ (2 * m))); [|exact D]|].
    - apply is_derive_Reals. apply derivable_pt_lim_sqrt. exact N.
    - field. lra. }
  split; cbn [clog fst snd].
  - eapply isd_eq; [apply (d_quot (fun y => ln (fst (F y) ^ 2 + snd (F y) ^ 2)) (fun _ => 2)); [|apply d_const|lra]|].
    + apply (d_chain ln (fun y => fst (F y) ^ 2 + snd (F y) ^ 2) t (/ (fst (F t) ^ 2 + snd (F t) ^ 2))); [|exact D]. apply is_derive_Reals, derivable_pt_lim_ln. exact N.
    + destruct (F t) as [x y], a as [p q]. simpl in *. field. lra.
  - eapply isd_eq; [apply (d_mul (fun _ => 2)); [apply d_const|]|].
    + apply (d_chain atan (fun y => snd (F y) / (sqrt (fst (F y) ^ 2 + snd (F y) ^ 2) + fst (F y))) t (/ (1 + (snd (F t) / (m + fst (F t))) ^ 2))).
      * fold m. apply is_derive_Reals. apply derivable_pt_lim_atan.
      * apply (d_quot (fun y => snd (F y)) (fun y => sqrt (fst (F y) ^ 2 + snd (F y) ^ 2) + fst (F y))); [exact F2|apply d_add; [exact S|exact F1]|]. fold m. lra.
    + cbv beta. fold m. destruct (F t) as [x y], a as [p q]. simpl fst in *. simpl snd in *. clearbody m. clear D S F1 F2.
      assert (Y : y * y = (m - x) * (m + x)) by (replace ((m - x) * (m + x)) with (m * m - x * x) by ring; rewrite MM; ring).
      assert (Q : 1 + (y / (m + x)) ^ 2 = 2 * m / (m + x)).
      { replace ((y / (m + x)) ^ 2) with (y * y / ((m + x) * (m + x))) by (field; lra). rewrite Y. field. lra. }
      cbn [fst snd]. rewrite Q.
      transitivity ((q * (m + x) * m - y * x * p - y * y * q - y * p * m) / (m * m * (m + x))); [field; lra|]. rewrite Y.
      transitivity ((x * q - y * p) / (m * m)); [field; lra|]. rewrite MM. unfold Cdiv, Cmult, Cinv. cbn [fst snd]. field. lra.
Qed.
Lemma cexp_clog : forall z, slit z -> cexp (clog z) = z.
Proof.
  intros [x y] H. pose proof (slit_norm _ H) as N. unfold slit, clog, cexp in *. cbn [fst snd] in *.
  set (m := sqrt (x ^ 2 + y ^ 2)) in *. assert (MM : m * m = x ^ 2 + y ^ 2) by (apply sqrt_sqrt; lra). assert (MP : 0 < m) by (apply sqrt_lt_R0; exact N).
  assert (E : exp (ln (x ^ 2 + y ^ 2) / 2) = m).
  { replace (ln (x ^ 2 + y ^ 2)) with (ln m + ln m) by (rewrite <- ln_mult by assumption; rewrite MM; reflexivity). replace ((ln m + ln m) / 2) with (ln m) by field. apply exp_ln. exact MP. }
  rewrite E. set (w := y / (m + x)). set (al := atan w).
  assert (Y : y * y = (m - x) * (m + x)) by (replace ((m - x) * (m + x)) with (m * m - x * x) by ring; rewrite MM; ring).
  assert (Q : 1 + w ^ 2 = 2 * m / (m + x)). { unfold w. replace ((y / (m + x)) ^ 2) with (y * y / ((m + x) * (m + x))) by (field; lra). rewrite Y. field. lra. }
  assert (P1 : 0 < 1 + w ^ 2) by nra.
  assert (CC : cos al * cos al = / (1 + w ^ 2)).
  { unfold al. rewrite cos_atan. unfold Rsqr. replace (w * w) with (w ^ 2) by ring. set (k := sqrt (1 + w ^ 2)). assert (KK : k * k = 1 + w ^ 2) by (apply sqrt_sqrt; lra). rewrite <- KK.
    assert (0 < k) by (apply sqrt_lt_R0; exact P1). field. lra. }
  assert (SC : sin al = w * cos al).
  { unfold al. rewrite sin_atan, cos_atan. unfold Rdiv. ring. }
  assert (C2 : cos (2 * al) = x / m). { rewrite cos_2a, SC. replace (cos al * cos al - w * cos al * (w * cos al)) with ((1 - w ^ 2) * (cos al * cos al)) by ring. rewrite CC.
    replace (1 - w ^ 2) with (2 - (1 + w ^ 2)) by ring. rewrite Q. field. lra. }
  assert (S2 : sin (2 * al) = y / m). { rewrite sin_2a, SC. replace (2 * (w * cos al) * cos al) with (2 * w * (cos al * cos al)) by ring. rewrite CC, Q. unfold w. field. lra. }
  rewrite C2, S2. f_equal; field; lra.
Qed.

Lemma cd_ext_loc : forall F G t l, locally t (fun y => F y = G y) -> cderive F t l -> cderive G t l.
Proof.
  intros F G t l E [H1 H2]. split.
  - apply (is_derive_ext_loc (fun y => fst (F y))); [|exact H1]. eapply filter_imp; [|exact E]. intros y K. cbv beta in K. rewrite K. reflexivity.
  - apply (is_derive_ext_loc (fun y => snd (F y))); [|exact H2]. eapply filter_imp; [|exact E]. intros y K. cbv beta in K. rewrite K. reflexivity.
Qed.
Lemma slit_loc : forall F t, continuous (fun y => fst (F y)) t -> continuous (fun y => snd (F y)) t -> slit (F t) -> locally t (fun y : R => slit (F y)).
Proof.
  intros F t C1 C2 H.
  assert (K : continuous (fun y => sqrt (fst (F y) ^ 2 + snd (F y) ^ 2) + fst (F y)) t).
  { apply (continuous_plus (fun y => sqrt (fst (F y) ^ 2 + snd (F y) ^ 2)) (fun y => fst (F y))); [|exact C1].
    apply (continuous_comp (fun y => fst (F y) ^ 2 + snd (F y) ^ 2) sqrt); [|apply continuous_sqrt].
    apply (continuous_ext (fun y => fst (F y) * fst (F y) + snd (F y) * snd (F y))); [intro y; match goal with |- ?u = ?v => change (@eq R u v) end; ring|].
    apply (continuous_plus (fun y => fst (F y) * fst (F y)) (fun y => snd (F y) * snd (F y))).
    - apply (continuous_mult (fun y => fst (F y)) (fun y => fst (F y))); assumption.
    - apply (continuous_mult (fun y => snd (F y)) (fun y => snd (F y))); assumption. }
  unfold slit. apply (K (fun z => 0 < z)). apply (open_gt 0). exact H.
Qed.
Lemma cd_cont : forall F t l, cderive F t l -> continuous (fun y => fst (F y)) t /\ continuous (fun y => snd (F y)) t.
Proof. intros F t l [H1 H2]. split; apply (@ex_derive_continuous R_AbsRing R_NormedModule); eexists; eassumption. Qed.
Lemma cd_log : forall (cln : C -> C) F t l, (forall z, slit z -> cln z = clog z) -> cderive F t l -> slit (F t) -> cderive (fun y => cln (F y)) t (Cdiv l (F t)).
Proof.
  intros cln F t l H D S0. apply (cd_ext_loc (fun y => clog (F y))); [|apply cd_clog; assumption].
  destruct (cd_cont F t l D) as [C1 C2]. eapply filter_imp; [|apply (slit_loc F t C1 C2 S0)]. intros y K. cbv beta in K. symmetry. apply H. exact K.
Qed.

Lemma cd_fst_log : forall (cln : C -> C) F t l, (forall z, z <> RtoC 0 -> fst (cln z) = ln (fst z ^ 2 + snd z ^ 2) / 2) -> (forall y, 0 <= y -> F y <> RtoC 0) -> 0 < t -> cderive F t l ->
  is_derive (fun y => fst (cln (F y))) t (fst (Cdiv l (F t))).
Proof.
  intros cln F t l H N Ht [D1 D2]. apply (is_derive_ext_loc (fun y => ln (fst (F y) ^ 2 + snd (F y) ^ 2) / 2)).
  - exists (mkposreal t Ht). intros y Hy. symmetry. apply H, N. unfold ball in Hy; simpl in Hy. unfold AbsRing_ball, abs, minus, plus, opp in Hy; simpl in Hy. apply Rabs_def2 in Hy. lra.
  - pose proof (cnz _ (N t (Rlt_le _ _ Ht))) as NZ. assert (P : 0 < fst (F t) ^ 2 + snd (F t) ^ 2) by nra.
    assert (D : is_derive (fun y => fst (F y) ^ 2 + snd (F y) ^ 2) t (2 * (fst (F t) * fst l + snd (F t) * snd l))).
    { eapply isd_eq; [apply (isd_ext (fun y => fst (F y) * fst (F y) + snd (F y) * snd (F y))); [intro; ring|apply d_add; apply d_mul; eassumption]|]. cbv beta. ring. }
    eapply isd_eq; [apply (d_mul (fun y => ln (fst (F y) ^ 2 + snd (F y) ^ 2)) (fun _ => / 2)); [apply (d_chain ln (fun y => fst (F y) ^ 2 + snd (F y) ^ 2)); [apply is_derive_ln; exact P|exact D]|apply d_const]|].
    cbv beta. destruct (F t) as [x y], l as [p w]. simpl in *. field. lra.
Qed.
(** a function that starts at zero and decreases wherever it vanishes stays negative *)
Lemma stays_negative : forall (f f' : R -> R), f 0 = 0 -> (forall t, 0 <= t -> is_derive f t (f' t)) -> (forall t, 0 <= t -> f t = 0 -> f' t < 0) -> forall t, 0 < t -> f t < 0.
Proof.
  intros f f' Z D N t1 Ht1. destruct (Rlt_or_le (f t1) 0) as [L|L]; [exact L|exfalso].
  assert (SG : forall s, 0 <= s -> f s = 0 -> exists e, 0 < e /\ forall y, y <> s -> Rabs (y - s) < e -> (f y) * (y - s) < 0).
  { intros s Hs Fs. pose proof (proj1 (is_derive_Reals f s (f' s)) (D s Hs)) as L1. assert (E : 0 < - f' s) by (pose proof (N s Hs Fs); lra).
    destruct (L1 _ E) as [e He]. exists e. split; [apply cond_pos|]. intros y Hy Hd. assert (H0 : y - s <> 0) by lra. specialize (He (y - s) H0 Hd). rewrite Fs in He.
    replace (s + (y - s)) with y in He by ring. apply Rabs_def2 in He. assert (K : (f y - 0) / (y - s) < 0) by lra.
    replace (f y * (y - s)) with ((f y - 0) / (y - s) * ((y - s) * (y - s))) by (field; exact H0). assert (0 < (y - s) * (y - s)) by nra. nra. }
  assert (CT : forall s, 0 <= s -> f s < 0 -> exists e, 0 < e /\ forall y, Rabs (y - s) < e -> f y < 0).
  { intros s Hs Fs. assert (C0 : continuous f s) by (apply (@ex_derive_continuous R_AbsRing R_NormedModule); eexists; apply D; exact Hs).
    destruct (C0 (fun z => z < 0) (open_lt 0 (f s) Fs)) as [e He]. exists e. split; [apply cond_pos|]. intros y Hy. apply He. exact Hy. }
  destruct (SG 0 (Rle_refl 0) Z) as (e0 & E0 & HE0).
  set (S0 := fun s => 0 <= s <= t1 /\ forall y, 0 < y <= s -> f y < 0).
  destruct (completeness S0) as [m [UB LUB]].
  { exists t1. intros s [K _]. lra. }
  { exists 0. split; [lra|]. intros y Hy. lra. }
  assert (M0 : 0 < m).
  { assert (K : S0 (Rmin (e0 / 2) t1)).
    { split; [split; [apply Rmin_glb; lra|apply Rmin_r]|]. intros y Hy. assert (y <= e0 / 2) by (apply Rle_trans with (Rmin (e0 / 2) t1); [lra|apply Rmin_l]).
      assert (Q : f y * (y - 0) < 0) by (apply HE0; [lra|rewrite Rminus_0_r, Rabs_pos_eq; lra]). rewrite Rminus_0_r in Q. nra. }
    apply UB in K. assert (0 < Rmin (e0 / 2) t1) by (apply Rmin_glb_lt; lra). lra. }
  assert (M1 : m <= t1) by (apply LUB; intros s [K _]; lra).
  assert (BE : forall y, 0 < y < m -> f y < 0).
  { intros y Hy. destruct (Rlt_or_le (f y) 0) as [Q|Q]; [exact Q|exfalso]. assert (m <= y); [|lra]. apply LUB. intros s [K1 K2]. destruct (Rle_or_lt s y) as [Q'|Q']; [exact Q'|]. specialize (K2 y). lra. }
  destruct (Rtotal_order (f m) 0) as [F1|[F1|F1]].
  - destruct (CT m (Rlt_le _ _ M0) F1) as (e & E & HE). destruct (Req_dec m t1) as [->|NE]; [lra|].
    set (m' := Rmin (m + e / 2) t1). assert (K : S0 m').
    { split; [split; [apply Rmin_glb; lra|apply Rmin_r]|]. intros y Hy. assert (y <= m + e / 2) by (apply Rle_trans with m'; [lra|apply Rmin_l]).
      destruct (Rlt_or_le y m) as [Q|Q]; [apply BE; lra|]. apply HE. rewrite Rabs_pos_eq; lra. }
    apply UB in K. assert (m < m') by (apply Rmin_glb_lt; lra). lra.
  - destruct (SG m (Rlt_le _ _ M0) F1) as (e & E & HE). set (y := Rmax (m / 2) (m - e / 2)).
    assert (Y1 : 0 < y < m) by (split; [apply Rlt_le_trans with (m / 2); [lra|apply Rmax_l]|apply Rmax_lub_lt; lra]).
    assert (Y2 : m - e / 2 <= y) by apply Rmax_r. assert (K : f y * (y - m) < 0) by (apply HE; [lra|rewrite Rabs_left; lra]). pose proof (BE y Y1). nra.
  - assert (C0 : continuous f m) by (apply (@ex_derive_continuous R_AbsRing R_NormedModule); eexists; apply D; lra).
    destruct (C0 (fun z => 0 < z) (open_gt 0 (f m) F1)) as [e He]. pose proof (cond_pos e). set (y := Rmax (m / 2) (m - e / 2)).
    assert (Y1 : 0 < y < m) by (split; [apply Rlt_le_trans with (m / 2); [lra|apply Rmax_l]|apply Rmax_lub_lt; lra]).
    assert (Y2 : m - e / 2 <= y) by apply Rmax_r. assert (K : 0 < f y) by (apply He; change (Rabs (y - m) < e); rewrite Rabs_left; lra). pose proof (BE y Y1). lra.
Qed.

(** The number whose logarithm the code takes, option_models.rs 891-897. *)
Definition log_argument (csqrt : C -> C) (t rho kappa sigma : R) (j : switch) (phi : R) : C :=
  Cdiv (Cminus (RtoC 1) (Cmult (h_g csqrt rho kappa sigma j phi) (cexp (Cmult (h_d csqrt rho kappa sigma j phi) (RtoC t))))) (Cminus (RtoC 1) (h_g csqrt rho kappa sigma j phi)).

(** ** The coefficients *)
Section Coefficients.
  Variables (csqrt cln : C -> C).
  (** the principal square root *)
  Hypothesis Hsqrt : forall z, Cmult (csqrt z) (csqrt z) = z /\ 0 <= fst (csqrt z).
  Variables (r q rho kappa theta sigma : R) (j : switch) (phi : R).
  Hypothesis Hsigma : 0 < sigma.
  Hypothesis Hrho : -1 < rho < 1.
  Hypothesis Hphi : phi <> 0.
  Hypothesis Hkappa : 0 < kappa /\ rho * sigma <= kappa.

  Local Open Scope C_scope.
  Let a : C := h_b rho kappa sigma j - RtoC (rho * sigma) * Ci * phi.
  Let d : C := h_d csqrt rho kappa sigma j phi.
  Let g : C := h_g csqrt rho kappa sigma j phi.
  Let u : R := h_u j.
  Let Dt (t : R) : C := h_D csqrt t rho kappa sigma j phi.
  Let Et (t : R) : C := cexp (d * t).

  Lemma d_square : d * d = a * a - RtoC (sigma ^ 2) * (RtoC (2 * u) * Ci * phi - RtoC (phi ^ 2)).
  Proof. unfold d, h_d. rewrite (proj1 (Hsqrt _)). unfold a, u. ring. Qed.
  Local Close Scope C_scope.
  Local Open Scope R_scope.
  Lemma d_parts : 0 < fst d /\ fst d * fst d - snd d * snd d = fst a * fst a - snd a * snd a + sigma ^ 2 * phi ^ 2 /\ fst d * snd d = fst a * snd a - u * sigma ^ 2 * phi.
  Proof.
    pose proof d_square as S. assert (P : 0 <= fst d) by apply Hsqrt.
    assert (S1 := f_equal fst S). assert (S2 := f_equal snd S). clear S. destruct d as [p w]. destruct a as [x y] eqn:Ea. cbn [fst snd Cmult Cplus Cminus Copp RtoC Ci] in *.
    assert (E1 : p * p - w * w = x * x - y * y + sigma ^ 2 * phi ^ 2) by (rewrite S1; ring).
    assert (E2 : p * w = x * y - u * sigma ^ 2 * phi) by (assert (p * w + w * p = 2 * (x * y - u * sigma ^ 2 * phi)) by (rewrite S2; ring); lra).
    split; [|split; assumption]. destruct (Rle_lt_or_eq_dec _ _ P) as [L|<-]; [exact L|exfalso].
    assert (AY : y = - (rho * sigma * phi)) by (pose proof (f_equal snd Ea) as K; unfold a in K; simpl in K; lra).
    assert (PP : 0 < sigma ^ 2 * phi ^ 2) by (apply Rmult_lt_0_compat; [apply pow_lt; exact Hsigma|]; assert (0 < phi * phi) by nra; simpl; nra).
    assert (RR : 0 < 1 - rho ^ 2) by nra.
    assert (0 < (1 - rho ^ 2) * (sigma ^ 2 * phi ^ 2)) by (apply Rmult_lt_0_compat; assumption). subst y. nra.
  Qed.
  Lemma a_parts : fst a = h_b rho kappa sigma j /\ snd a = - (rho * sigma * phi).
  Proof. unfold a. simpl. split; ring. Qed.
  Lemma b_nonneg : 0 <= h_b rho kappa sigma j /\ h_b rho kappa sigma j + u * rho * sigma = kappa - rho * sigma / 2.
  Proof. unfold u. destruct j; simpl; split; try lra; field. Qed.
  (** [|a + d| > |a - d|] *)
  Lemma a_dot_d : 0 < fst a * fst d + snd a * snd d.
  Proof.
    destruct d_parts as (P & E1 & E2). destruct a_parts as [A1 A2]. destruct b_nonneg as [B1 B2].
    apply Rmult_lt_reg_l with (fst d); [exact P|]. rewrite Rmult_0_r.
    replace (fst d * (fst a * fst d + snd a * snd d)) with (fst a * (fst d * fst d) + snd a * (fst d * snd d)) by ring. rewrite E2.
    set (b := h_b rho kappa sigma j) in *. rewrite A1, A2 in *. set (p := fst d) in *. set (w := snd d) in *. clearbody p w b.
    assert (PP : p * p >= b * b + (1 - rho ^ 2) * (sigma ^ 2 * phi ^ 2)) by nra.
    assert (PS : 0 < sigma ^ 2 * phi ^ 2) by (apply Rmult_lt_0_compat; [apply pow_lt; exact Hsigma|]; assert (0 < phi * phi) by nra; simpl; nra).
    assert (K : 0 < kappa - rho * sigma / 2) by (destruct Hkappa; destruct (Rle_or_lt 0 rho); nra).
    apply Rlt_le_trans with (b * (b * b) + (sigma ^ 2 * phi ^ 2) * (kappa - rho * sigma / 2)).
    - assert (0 <= b * (b * b)) by (repeat apply Rmult_le_pos; assumption). assert (0 < (sigma ^ 2 * phi ^ 2) * (kappa - rho * sigma / 2)) by (apply Rmult_lt_0_compat; assumption). lra.
    - rewrite <- B2. replace (b * (p * p) + - (rho * sigma * phi) * (b * - (rho * sigma * phi) - u * sigma ^ 2 * phi)) with (b * (p * p) + b * (rho ^ 2 * (sigma ^ 2 * phi ^ 2)) + (sigma ^ 2 * phi ^ 2) * (u * rho * sigma)) by ring.
      assert (b * (b * b + (1 - rho ^ 2) * (sigma ^ 2 * phi ^ 2)) <= b * (p * p)) by (apply Rmult_le_compat_l; lra). nra.
  Qed.
  Lemma minus_nz : Cminus a d <> RtoC 0.
  Proof.
    intro K. assert (S := d_square). assert (E : d = a) by (replace d with (Cminus a (Cminus a d)) by ring; rewrite K; ring).
    rewrite E in S. assert (S1 := f_equal fst S). clear S E K. destruct a as [x y]. simpl in S1.
    assert (0 < sigma ^ 2 * phi ^ 2) by (apply Rmult_lt_0_compat; [apply pow_lt; exact Hsigma|]; assert (0 < phi * phi) by nra; simpl; nra). nra.
  Qed.
  (** the denominator [a - d - (a + d) e^(dt)] never vanishes *)
  Lemma denom_nz : forall t, 0 <= t -> Cminus (Cminus a d) (Cmult (Cplus a d) (Et t)) <> RtoC 0.
  Proof.
    intros t Ht K. pose proof a_dot_d as AD. destruct d_parts as (P & _ & _).
    assert (K1 := f_equal fst K). assert (K2 := f_equal snd K). clear K. unfold Et in *. destruct a as [x y], d as [p w]. unfold cexp in *. cbn [fst snd Cmult Cplus Cminus Copp RtoC] in *.
    set (al := (p * t - w * 0)%R) in *. set (be := (p * 0 + w * t)%R) in *.
    assert (Ea : 1 <= exp al) by (rewrite <- exp_0; destruct (Req_dec al 0) as [->|N]; [lra|]; left; apply exp_increasing; unfold al in *; nra).
    pose proof (sin2_cos2 be) as T. unfold Rsqr in T. set (e := exp al) in *. set (c := cos be) in *. set (s := sin be) in *. clearbody e c s.
    assert (M : (x - p) ^ 2 + (y - w) ^ 2 = ((x + p) ^ 2 + (y + w) ^ 2) * e ^ 2).
    { replace (x - p) with ((x + p) * (e * c) - (y + w) * (e * s)) by lra. replace (y - w) with ((x + p) * (e * s) + (y + w) * (e * c)) by lra.
      transitivity (((x + p) ^ 2 + (y + w) ^ 2) * e ^ 2 * (s * s + c * c)); [ring|rewrite T; ring]. }
    assert (e ^ 2 >= 1) by nra. nra.
  Qed.
  Lemma sub_g : forall t, Cmult (Cminus a d) (Cminus (RtoC 1) (Cmult g (Et t))) = Cminus (Cminus a d) (Cmult (Cplus a d) (Et t)).
  Proof. intro t. unfold g, h_g. fold a d. field. apply minus_nz. Qed.
  Lemma one_g_nz : forall t, 0 <= t -> Cminus (RtoC 1) (Cmult g (Et t)) <> RtoC 0.
  Proof. intros t Ht K. apply (denom_nz t Ht). rewrite <- sub_g, K. ring. Qed.
  Lemma Et_0 : Et 0 = RtoC 1.
  Proof. unfold Et, cexp. simpl. rewrite !Rmult_0_r. replace (0 - 0) with 0 by ring. replace (0 + 0) with 0 by ring. rewrite exp_0, cos_0, sin_0. unfold RtoC. f_equal; ring. Qed.
  Lemma Et_d : forall t, cderive Et t (Cmult (Et t) d).
  Proof. intro t. unfold Et. apply cd_cexp. eapply cd_eq; [apply (cd_mult (fun _ => d) (fun y => RtoC y)); [apply cd_const|apply cd_id]|ring]. Qed.
  Lemma sig_nz : RtoC (sigma ^ 2) <> RtoC 0.
  Proof. intro K. apply (f_equal fst) in K. simpl in K. nra. Qed.
  (** [D] in terms of [a], [d] and [e^(dt)] *)
  Lemma Dt_eq : forall t, Dt t = Cmult (Cmult (Cplus a d) (Cminus a d)) (Cmult (Cminus (RtoC 1) (Et t)) (Cinv (Cmult (RtoC (sigma ^ 2)) (Cminus (Cminus a d) (Cmult (Cplus a d) (Et t)))))).
  Proof.
    intros t. unfold Dt, h_D. fold a d g. fold (Et t). rewrite <- sub_g. unfold Cdiv.
    rewrite (Cmult_comm (Cminus a d) (Cminus _ _)). rewrite Cmult_assoc.
    destruct (Ceq_dec (Cminus (RtoC 1) (Cmult g (Et t))) (RtoC 0)) as [->|N].
    - assert (Z : Cinv (RtoC 0) = RtoC 0) by (unfold Cinv, RtoC, Rdiv; simpl; f_equal; ring). rewrite Cmult_0_l, !Cmult_0_r, Z. ring.
    - field. repeat split; [apply minus_nz|exact N|exact sig_nz].
  Qed.
  Local Open Scope C_scope.
  Lemma riccati_D : forall t, (0 <= t)%R -> cderive Dt t (RtoC (/ 2 * sigma ^ 2) * (Dt t * Dt t) - a * Dt t + (RtoC u * Ci * phi - RtoC (/ 2 * phi ^ 2))).
  Proof.
    intros t Ht. apply (cd_ext (fun t => (a + d) * (a - d) * ((1 - Et t) * / (RtoC (sigma ^ 2) * (a - d - (a + d) * Et t))))); [intro; symmetry; apply Dt_eq|].
    pose proof (denom_nz t Ht) as N. pose proof sig_nz as SN.
    assert (Q : d * d = a * a - RtoC (sigma ^ 2) * (2 * (RtoC u * Ci * phi - RtoC (/ 2 * phi ^ 2)))).
    { rewrite d_square. rewrite !RtoC_mult. replace (RtoC (/ 2)) with (/ 2) by (rewrite RtoC_inv; [reflexivity|lra]). field. intro K; apply (f_equal fst) in K; simpl in K; lra. }
    set (X := RtoC u * Ci * phi - RtoC (/ 2 * phi ^ 2)) in *. clearbody X.
    eapply cd_eq.
    - apply (cd_mult (fun _ => (a + d) * (a - d))); [apply cd_const|]. apply (cd_mult (fun t => 1 - Et t)); [apply (cd_minus (fun _ => RtoC 1)); [apply cd_const|apply Et_d]|].
      apply (cd_inv (fun t => RtoC (sigma ^ 2) * (a - d - (a + d) * Et t))).
      + apply (cd_mult (fun _ => RtoC (sigma ^ 2))); [apply cd_const|]. apply (cd_minus (fun _ => a - d)); [apply cd_const|]. apply (cd_mult (fun _ => a + d)); [apply cd_const|apply Et_d].
      + apply Cmult_neq_0; assumption.
    - cbv beta. rewrite Dt_eq. assert (XE : X = (a * a - d * d) * / (RtoC (sigma ^ 2)) * / 2) by (rewrite Q; field; split; [intro K; apply (f_equal fst) in K; simpl in K; lra|exact SN]).
      rewrite XE. rewrite (RtoC_mult (/ 2)). replace (RtoC (/ 2)) with (/ 2) by (rewrite RtoC_inv; [reflexivity|lra]).
      clear XE Q X. replace (RtoC 2) with (RtoC 1 + RtoC 1) by (unfold RtoC, Cplus; simpl; f_equal; ring).
      field. repeat split; try assumption. intro K; apply (f_equal fst) in K; simpl in K; lra.
  Qed.
  Lemma Dt_0 : Dt 0 = 0.
  Proof. rewrite Dt_eq, Et_0. ring. Qed.
  Hypothesis Hln : forall z, slit z -> cln z = clog z.
  Let Ct (t : R) : C := h_C csqrt cln t r q rho kappa theta sigma j phi.
  Let Zt (t : R) : C := log_argument csqrt t rho kappa sigma j phi.
  Lemma one_minus_g : 1 - g <> 0.
  Proof. pose proof (one_g_nz 0 (Rle_refl 0)) as K. rewrite Et_0 in K. intro Q. apply K. rewrite <- Q. ring. Qed.
  Lemma Zt_0 : Zt 0 = 1.
  Proof. unfold Zt, log_argument. fold d g. fold (Et 0). rewrite Et_0. field. apply one_minus_g. Qed.
  Lemma Zt_d : forall t, cderive Zt t (- (g * (Et t * d)) / (1 - g)).
  Proof.
    intro t. unfold Zt, log_argument. fold d g. eapply cd_eq.
    - apply (cd_mult (fun t => 1 - g * Et t) (fun _ => / (1 - g))); [|apply cd_const]. apply (cd_minus (fun _ => RtoC 1)); [apply cd_const|]. apply (cd_mult (fun _ => g)); [apply cd_const|apply Et_d].
    - cbv beta. unfold Cdiv. ring.
  Qed.
  Lemma linear_C : forall t, (0 <= t)%R -> slit (Zt t) -> cderive Ct t (RtoC (r - q) * Ci * phi + RtoC (kappa * theta) * Dt t).
  Proof.
    intros t Ht HS. pose proof (one_g_nz t Ht) as N. pose proof one_minus_g as N1. pose proof sig_nz as SN. pose proof minus_nz as AN.
    assert (GA : g = (a + d) * / (a - d)) by reflexivity. pose proof (denom_nz t Ht) as DN.
    assert (D0 : (a - d) - (a + d) <> 0) by (intro K; apply (denom_nz 0 (Rle_refl 0)); rewrite Et_0, <- K; ring).
    eapply cd_eq.
    - unfold Ct, h_C. fold a d g. apply (cd_plus (fun t => RtoC (r - q) * Ci * phi * RtoC t)).
      + apply (cd_mult (fun _ => RtoC (r - q) * Ci * phi)); [apply cd_const|apply cd_id].
      + apply (cd_mult (fun _ => RtoC (kappa * theta / sigma ^ 2))); [apply cd_const|].
        apply (cd_minus (fun t => (a + d) * RtoC t)); [apply (cd_mult (fun _ => a + d)); [apply cd_const|apply cd_id]|].
        apply (cd_mult (fun _ => RtoC 2)); [apply cd_const|]. apply (cd_log cln Zt); [exact Hln|apply Zt_d|exact HS].
    - cbv beta. unfold Zt, log_argument. fold d g. fold (Et t). unfold Dt, h_D. fold a d g. fold (Et t). rewrite GA.
      replace (RtoC 2) with (RtoC 1 + RtoC 1) by (unfold RtoC, Cplus; simpl; f_equal; ring).
      unfold Rdiv. rewrite (RtoC_mult (kappa * theta)). rewrite (RtoC_inv (sigma ^ 2)) by (intro K; apply SN; rewrite K; reflexivity).
      field. repeat split; assumption.
  Qed.
  Lemma Ct_0 : Ct 0 = 0.
  Proof.
    unfold Ct, h_C. fold a d g. change ((1 - g * cexp (d * RtoC 0)) / (1 - g)) with (Zt 0). rewrite Zt_0.
    assert (S1 : slit 1) by (unfold slit; simpl; replace (1 * (1 * 1) + 0 * (0 * 1))%R with 1%R by ring; rewrite sqrt_1; lra).
    rewrite (Hln 1 S1). assert (L : clog 1 = 0).
    { unfold clog, RtoC. simpl. replace (1 * (1 * 1) + 0 * (0 * 1))%R with 1%R by ring. rewrite ln_1. replace (0 / (sqrt 1 + 1))%R with 0%R by (unfold Rdiv; ring). rewrite atan_0. f_equal; [field|ring]. }
    rewrite L. ring.
  Qed.
  Local Close Scope C_scope.
  Lemma D_negative : forall t, 0 < t -> fst (Dt t) < 0.
  Proof.
    apply (stays_negative (fun t => fst (Dt t)) (fun t => fst (Cplus (Cminus (Cmult (RtoC (/ 2 * sigma ^ 2)) (Cmult (Dt t) (Dt t))) (Cmult a (Dt t))) (Cminus (Cmult (Cmult (RtoC u) Ci) phi) (RtoC (/ 2 * phi ^ 2)))))).
    - rewrite Dt_0. reflexivity.
    - intros t Ht. apply (riccati_D t Ht).
    - intros t Ht K. destruct a_parts as [A1 A2]. destruct a as [x y]. destruct (Dt t) as [p w]. cbn [fst snd Cmult Cplus Cminus Copp RtoC Ci] in *. subst p y.
      assert (0 < (sigma * w + rho * phi) ^ 2 + (1 - rho ^ 2) * phi ^ 2).
      { assert (0 < 1 - rho ^ 2) by nra. assert (0 < phi ^ 2) by (assert (0 < phi * phi) by nra; simpl; nra). assert (0 < (1 - rho ^ 2) * phi ^ 2) by (apply Rmult_lt_0_compat; assumption). pose proof (pow2_ge_0 (sigma * w + rho * phi)). lra. }
      nra.
  Qed.
  Hypothesis Habs : forall z, z <> RtoC 0 -> fst (cln z) = ln (fst z ^ 2 + snd z ^ 2) / 2.
  Lemma Zt_nz : forall t, 0 <= t -> Zt t <> RtoC 0.
  Proof.
    intros t Ht K. apply (one_g_nz t Ht). transitivity (Cmult (Zt t) (Cminus (RtoC 1) g)); [|rewrite K; ring]. unfold Zt, log_argument. fold d g. fold (Et t). field. apply one_minus_g.
  Qed.
  Lemma C_real_d : forall t, 0 < t -> is_derive (fun y => fst (Ct y)) t (kappa * theta * fst (Dt t)).
  Proof.
    intros t Ht. pose proof (cd_fst_log cln Zt t _ Habs Zt_nz Ht (Zt_d t)) as L.
    assert (LA : is_derive (fun y => fst (Cmult (Cplus a d) (RtoC y))) t (fst (Cplus a d))).
    { assert (K := cd_mult (fun _ => Cplus a d) (fun y => RtoC y) t _ _ (cd_const _ t) (cd_id t)). destruct K as [K _]. eapply isd_eq; [exact K|]. simpl. ring. }
    apply (isd_ext (fun y => kappa * theta / sigma ^ 2 * (fst (Cmult (Cplus a d) (RtoC y)) - 2 * fst (cln (Zt y))))).
    { intro y. unfold Ct, h_C. fold a d g. change (Cdiv (Cminus (RtoC 1) (Cmult g (cexp (Cmult d (RtoC y))))) (Cminus (RtoC 1) g)) with (Zt y). set (l := cln (Zt y)). cbn [fst snd Cmult Cplus Cminus Copp RtoC Ci]. ring. }
    eapply isd_eq; [apply (d_mul (fun _ => kappa * theta / sigma ^ 2)); [apply d_const|apply d_sub; [exact LA|apply (d_mul (fun _ => 2)); [apply d_const|exact L]]]|]. cbv beta.
    assert (Q : Cmult (RtoC (sigma ^ 2)) (Dt t) = Cminus (Cplus a d) (Cmult (RtoC 2) (Cdiv (Cdiv (Copp (Cmult g (Cmult (Et t) d))) (Cminus (RtoC 1) g)) (Zt t)))).
    { pose proof (one_g_nz t (Rlt_le _ _ Ht)) as N. pose proof one_minus_g as N1. pose proof sig_nz as SN. pose proof minus_nz as AN.
      assert (GA : g = Cmult (Cplus a d) (Cinv (Cminus a d))) by reflexivity. pose proof (denom_nz t (Rlt_le _ _ Ht)) as DN.
      assert (D0 : Cminus (Cminus a d) (Cplus a d) <> RtoC 0) by (intro K; apply (denom_nz 0 (Rle_refl 0)); rewrite Et_0, <- K; ring).
      unfold Zt, log_argument. fold d g. fold (Et t). unfold Dt, h_D. fold a d g. fold (Et t). rewrite GA.
      replace (RtoC 2) with (Cplus (RtoC 1) (RtoC 1)) by (unfold RtoC, Cplus; simpl; f_equal; ring). field. repeat split; assumption. }
    apply (f_equal fst) in Q. set (m := Cdiv (Cdiv (Copp (Cmult g (Cmult (Et t) d))) (Cminus (RtoC 1) g)) (Zt t)) in *. clearbody m. destruct m as [m1 m2], (Dt t) as [D1 D2].
    cbn [fst snd Cmult Cplus Cminus Copp RtoC Ci] in *. replace (sigma ^ 2 * D1 - 0 * D2) with (sigma ^ 2 * D1) in Q by ring.
    assert (Q' : fst a + fst d = sigma ^ 2 * D1 + 2 * m1) by lra. rewrite Q'. field. lra.
  Qed.
  Lemma C_nonpos : forall t, 0 <= theta -> 0 <= t -> fst (Ct t) <= 0.
  Proof.
    intros t Hth Ht. destruct (Rle_lt_or_eq_dec _ _ Ht) as [L|<-]; [|rewrite Ct_0; simpl; lra].
    assert (K : fst (Ct t) <= fst (Ct 0)); [|rewrite Ct_0 in K; exact K].
    destruct (MVT_gen (fun y => fst (Ct y)) 0 t (fun y => kappa * theta * fst (Dt y))) as (c & Hc & E).
    - intros x Hx. rewrite Rmin_left in Hx by lra. apply C_real_d. lra.
    - intros x Hx. rewrite Rmin_left in Hx by lra. rewrite Rmax_right in Hx by lra. apply continuity_pt_filterlim. destruct (Req_dec x 0) as [->|NX].
      + assert (HS : slit (Zt 0)) by (rewrite Zt_0; unfold slit; simpl; replace (1 * (1 * 1) + 0 * (0 * 1)) with 1 by ring; rewrite sqrt_1; lra).
        exact (proj1 (cd_cont Ct 0 _ (linear_C 0 (Rle_refl 0) HS))).
      + apply (@ex_derive_continuous R_AbsRing R_NormedModule (fun y => fst (Ct y))). eexists. apply C_real_d. lra.
    - rewrite Rmin_left in Hc by lra. rewrite Rmax_right in Hc by lra. destruct Hkappa as [HK _].
      assert (DN : fst (Dt c) <= 0) by (destruct (Req_dec c 0) as [->|NC]; [rewrite Dt_0; simpl; lra|left; apply D_negative; lra]).
      assert (0 <= kappa * theta) by (apply Rmult_le_pos; lra). assert (kappa * theta * fst (Dt c) <= 0) by nra. nra.
  Qed.
  Lemma plus_nz : Cplus a d <> RtoC 0.
  Proof.
    intro K. pose proof a_dot_d as AD. assert (K1 := f_equal fst K). assert (K2 := f_equal snd K). change (fst a + fst d = 0) in K1. change (snd a + snd d = 0) in K2. destruct d_parts as (P & _ & _).
    replace (fst a) with (- fst d) in AD by lra. replace (snd a) with (- snd d) in AD by lra. nra.
  Qed.
  Lemma d_nz : d <> RtoC 0.
  Proof. intro K. destruct d_parts as (P & _ & _). rewrite K in P. simpl in P. lra. Qed.
  Lemma d_im : h_b rho kappa sigma j * rho + u * sigma <> 0 -> snd d <> 0.
  Proof.
    intros N K. destruct d_parts as (P & _ & E). destruct a_parts as [A1 A2]. rewrite K, A1, A2 in E. apply N.
    assert (Z : sigma * phi * (h_b rho kappa sigma j * rho + u * sigma) = 0) by nra. apply Rmult_integral in Z. destruct Z as [Z|Z]; [|exact Z]. apply Rmult_integral in Z. lra.
  Qed.
  Lemma Zt_form : forall t, Zt t = Cplus (Cmult (Cdiv (Cplus a d) (Cmult (RtoC 2) d)) (Et t)) (Cdiv (Cminus d a) (Cmult (RtoC 2) d)).
  Proof.
    intro t. pose proof one_minus_g as N1. pose proof minus_nz as AN. pose proof d_nz as DN. assert (GA : g = Cmult (Cplus a d) (Cinv (Cminus a d))) by reflexivity.
    assert (D0 : Cminus (Cminus a d) (Cplus a d) <> RtoC 0) by (intro K; apply (denom_nz 0 (Rle_refl 0)); rewrite Et_0, <- K; ring).
    unfold Zt, log_argument. fold d g. fold (Et t). rewrite GA.
    replace (RtoC 2) with (Cplus (RtoC 1) (RtoC 1)) by (unfold RtoC, Cplus; simpl; f_equal; ring). field. repeat split; try assumption.
    intro K. apply (f_equal fst) in K. simpl in K. lra.
  Qed.
  (** everything in the exponent of [f] but the logarithm *)
  Definition rest_of (lead : C) (t : R) : C := Cplus (Cplus (Cmult (Cmult (Cmult (RtoC (r - q)) Ci) phi) (RtoC t)) (Cmult (RtoC (kappa * theta / sigma ^ 2)) (Cmult lead (RtoC t)))) (RtoC 0).
  Lemma Ct_split : forall t, Ct t = Cminus (rest_of (Cplus a d) t) (Cmult (RtoC (2 * kappa * theta / sigma ^ 2)) (cln (Zt t))).
  Proof.
    intro t. unfold Ct, h_C. fold a d g. change (Cdiv (Cminus (RtoC 1) (Cmult g (cexp (Cmult d (RtoC t))))) (Cminus (RtoC 1) g)) with (Zt t). unfold rest_of.
    replace (RtoC (2 * kappa * theta / sigma ^ 2)) with (Cmult (RtoC 2) (RtoC (kappa * theta / sigma ^ 2))) by (rewrite <- RtoC_mult; f_equal; field; lra). ring.
  Qed.
  Lemma rest_d : forall lead t, exists l, cderive (rest_of lead) t l.
  Proof.
    intros. eexists. unfold rest_of. apply cd_plus; [|apply cd_const]. apply cd_plus.
    - apply (cd_mult (fun _ => Cmult (Cmult (RtoC (r - q)) Ci) phi)); [apply cd_const|apply cd_id].
    - apply (cd_mult (fun _ => RtoC (kappa * theta / sigma ^ 2))); [apply cd_const|]. apply (cd_mult (fun _ => lead)); [apply cd_const|apply cd_id].
  Qed.
End Coefficients.
(** |exp z| *)
Lemma cexp_norm : forall z, fst (cexp z) ^ 2 + snd (cexp z) ^ 2 = exp (fst z) ^ 2.
Proof. intros [x y]. unfold cexp. simpl. pose proof (sin2_cos2 y) as T. unfold Rsqr in T. transitivity (exp x * exp x * (sin y * sin y + cos y * cos y)); [ring|rewrite T; ring]. Qed.

