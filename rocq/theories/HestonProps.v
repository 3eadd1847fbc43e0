(** C83: Heston's prices solve Heston's equation; C84: where they jump. *)
From Coq Require Import Reals List Bool Lra Lia Psatz ZArith.
From Coquelicot Require Import Coquelicot.
From Verif Require Import Res InterpModel InterpProofs RList StatModel StatProps PayoffModel SpecialFns BsmModel BsmProofs BsmProps BachHestonProps HestonOde HestonPde HestonTrap.
From Verif Require QuadModel QuadMath.
Import ListNotations.
Open Scope R_scope.

(** Parameters for which no denominator of the formula vanishes. *)
Definition admissible (rho kappa sigma : R) : Prop := 0 < sigma /\ -1 < rho < 1 /\ 0 < kappa /\ rho * sigma <= kappa.
(** The rule of integration.rs 65-76, 86-291. *)
Definition library_rule : list (R * R) := map (fun i => (QuadModel.dval (nth i QuadModel.ABSCISSAE (QuadModel.dec 0 0)), QuadModel.dval (nth i QuadModel.WEIGHTS (QuadModel.dec 0 0)))) (seq 0 100).

(** ** The exponents *)
Theorem heston_exponents : forall csqrt cln r q rho kappa theta sigma j phi t, principal_sqrt csqrt -> principal_log cln -> admissible rho kappa sigma -> phi <> 0 -> 0 <= t ->
  slit (log_argument csqrt t rho kappa sigma j phi) ->
  let D := fun y => h_D csqrt y rho kappa sigma j phi in let Cc := fun y => h_C csqrt cln y r q rho kappa theta sigma j phi in
  let a := Cminus (RtoC (h_b rho kappa sigma j)) (Cmult (Cmult (RtoC (rho * sigma)) Ci) (RtoC phi)) in
  D 0 = RtoC 0 /\ Cc 0 = RtoC 0 /\
  cderive D t (Cplus (Cminus (Cmult (RtoC (/ 2 * sigma ^ 2)) (Cmult (D t) (D t))) (Cmult a (D t))) (Cminus (Cmult (Cmult (RtoC (h_u j)) Ci) (RtoC phi)) (RtoC (/ 2 * phi ^ 2)))) /\
  cderive Cc t (Cplus (Cmult (Cmult (RtoC (r - q)) Ci) (RtoC phi)) (Cmult (RtoC (kappa * theta)) (D t))).
Proof.
  intros csqrt cln r q rho kappa theta sigma j phi t HS HL (H1 & H2 & H3) Hp Ht Hs D Cc a. pose proof (plog_slit cln HL) as Hln.
  split; [apply Dt_0; assumption|]. split; [apply Ct_0; assumption|]. split; [apply riccati_D; assumption|apply linear_C; assumption].
Qed.
Print Assumptions heston_exponents.
Example heston_exponents_case : principal_sqrt psqrt /\ principal_log plog /\ admissible (- (7 / 10)) 2 (3 / 10) /\ slit (log_argument psqrt 0 (- (7 / 10)) 2 (3 / 10) Two 1).
Proof.
  split; [exact psqrt_principal|]. split; [exact plog_principal|]. assert (A : admissible (- (7 / 10)) 2 (3 / 10)) by (unfold admissible; lra). split; [exact A|]. destruct A as (A1 & A2 & A3).
  rewrite (Zt_0 psqrt psqrt_principal (- (7 / 10)) 2 (3 / 10) Two 1 A1 A2 ltac:(lra) A3). unfold slit. simpl. replace (1 * (1 * 1) + 0 * (0 * 1)) with 1 by ring. rewrite sqrt_1. lra.
Qed.

(** ** Prices *)
Theorem heston_prices_solve_equation : forall csqrt cln nodes r q rho kappa theta sigma s v t k, principal_sqrt csqrt -> principal_log cln -> admissible rho kappa sigma ->
  (forall n, In n nodes -> -1 <= fst n <= 1) -> 0 < s -> 0 <= t ->
  (forall j n, In n nodes -> slit (log_argument csqrt t rho kappa sigma j (visited n))) ->
  solves_heston (fun s v t => heston_call csqrt cln nodes v t r q rho kappa theta sigma s k) r q rho kappa theta sigma s v t /\
  solves_heston (fun s v t => heston_put csqrt cln nodes v t r q rho kappa theta sigma s k) r q rho kappa theta sigma s v t.
Proof.
  intros csqrt cln nodes r q rho kappa theta sigma s v t k HS HL (H1 & H2 & H3) Hn Hs Ht HO.
  apply heston_prices_solve; try assumption. apply plog_slit. exact HL.
Qed.
Print Assumptions heston_prices_solve_equation.

(** For short expiries the logarithm stays on its branch. *)
Lemma short_branch : forall csqrt rho kappa sigma nodes, principal_sqrt csqrt -> admissible rho kappa sigma -> (forall n, In n nodes -> -1 <= fst n <= 1) ->
  exists T, 0 < T /\ forall t j n, 0 <= t < T -> In n nodes -> slit (log_argument csqrt t rho kappa sigma j (visited n)).
Proof.
  intros csqrt rho kappa sigma nodes HS (H1 & H2 & H3) Hn.
  assert (L : forall j n, In n nodes -> locally 0 (fun t => slit (log_argument csqrt t rho kappa sigma j (visited n)))).
  { intros j n I. assert (VP : visited n <> 0) by (pose proof (visited_pos nodes Hn n I); lra).
    destruct (cd_cont _ _ _ (Zt_d csqrt rho kappa sigma j (visited n) 0)) as [C1 C2].
    apply (slit_loc (fun t => log_argument csqrt t rho kappa sigma j (visited n)) 0 C1 C2). rewrite Zt_0; try assumption. unfold slit. simpl. replace (1 * (1 * 1) + 0 * (0 * 1)) with 1 by ring. rewrite sqrt_1. lra. }
  assert (A : locally 0 (fun t => forall n, In n nodes -> slit (log_argument csqrt t rho kappa sigma One (visited n)) /\ slit (log_argument csqrt t rho kappa sigma Two (visited n)))).
  { clear Hn. induction nodes as [|n l IH]; [apply filter_forall; intros t n []|].
    eapply filter_imp; [|apply (filter_and _ _ (filter_and _ _ (L One n (or_introl eq_refl)) (L Two n (or_introl eq_refl))) (IH (fun j m I => L j m (or_intror I))))].
    intros t [K K'] m [<-|I]; [exact K|apply K'; exact I]. }
  destruct A as [e He]. exists e. split; [apply cond_pos|]. intros t j n Ht I. assert (B : ball 0 e t) by (change (Rabs (t - 0) < e); rewrite Rabs_pos_eq; lra).
  destruct (He t B n I) as [K1 K2]. destruct j; assumption.
Qed.
Theorem heston_prices_short_expiry : forall csqrt cln nodes r q rho kappa theta sigma, principal_sqrt csqrt -> principal_log cln -> admissible rho kappa sigma ->
  (forall n, In n nodes -> -1 <= fst n <= 1) ->
  exists T, 0 < T /\ forall s v t k, 0 < s -> 0 <= t < T ->
    solves_heston (fun s v t => heston_call csqrt cln nodes v t r q rho kappa theta sigma s k) r q rho kappa theta sigma s v t /\
    solves_heston (fun s v t => heston_put csqrt cln nodes v t r q rho kappa theta sigma s k) r q rho kappa theta sigma s v t.
Proof.
  intros csqrt cln nodes r q rho kappa theta sigma HS HL HA Hn. destruct (short_branch csqrt rho kappa sigma nodes HS HA Hn) as (T & HT & HB). exists T. split; [exact HT|].
  intros s v t k Hs Ht. apply heston_prices_solve_equation; try assumption; [lra|]. intros j n I. apply HB; assumption.
Qed.
Print Assumptions heston_prices_short_expiry.
Lemma library_rule_range : forall n, In n library_rule -> -1 <= fst n <= 1.
Proof.
  intros n H. apply in_map_iff in H. destruct H as (i & <- & I). destruct (QuadMath.row_spec i I) as (_ & X & _). apply Rabs_le_between in X. exact X.
Qed.
Example heston_prices_case : principal_sqrt psqrt /\ principal_log plog /\ admissible (- (7 / 10)) 2 (3 / 10) /\ (forall n, In n library_rule -> -1 <= fst n <= 1).
Proof. split; [exact psqrt_principal|]. split; [exact plog_principal|]. split; [unfold admissible; lra|exact library_rule_range]. Qed.

(** ** Size of the characteristic functions *)
Theorem heston_characteristic_bounded : forall csqrt cln v t r q rho kappa theta sigma s j phi, principal_sqrt csqrt -> principal_log cln -> admissible rho kappa sigma ->
  phi <> 0 -> 0 <= t -> 0 <= v -> 0 <= theta ->
  let f := h_f csqrt cln v t r q rho kappa theta sigma s j phi in fst f ^ 2 + snd f ^ 2 <= 1 /\ (0 < t -> 0 < v -> fst f ^ 2 + snd f ^ 2 < 1).
Proof.
  intros csqrt cln v t r q rho kappa theta sigma s j phi HS HL (H1 & H2 & H3) Hp Ht Hv Hth f. unfold f, h_f. rewrite cexp_norm. cbn [fst snd Cplus Cmult RtoC Ci].
  assert (CN := C_nonpos csqrt cln HS r q rho kappa theta sigma j phi H1 H2 Hp H3 (plog_slit cln HL) (plog_norm cln HL) t Hth Ht).
  set (c := fst (h_C csqrt cln t r q rho kappa theta sigma j phi)) in *.
  assert (DN : 0 < t -> fst (h_D csqrt t rho kappa sigma j phi) < 0) by (intro Q; apply (D_negative csqrt HS rho kappa sigma j phi H1 H2 Hp H3 t Q)).
  assert (D0 : t = 0 -> h_D csqrt t rho kappa sigma j phi = RtoC 0) by (intros ->; apply Dt_0; assumption).
  replace (c + (fst (h_D csqrt t rho kappa sigma j phi) * v - snd (h_D csqrt t rho kappa sigma j phi) * 0) + ((0 * phi - 1 * 0) * ln s - (0 * 0 + 1 * phi) * 0)) with (c + fst (h_D csqrt t rho kappa sigma j phi) * v) by ring.
  assert (E : forall z, exp z ^ 2 = exp (2 * z)) by (intro z; replace (2 * z) with (z + z) by ring; rewrite exp_plus; ring). rewrite E.
  assert (X : fst (h_D csqrt t rho kappa sigma j phi) <= 0) by (destruct (Rle_lt_or_eq_dec _ _ Ht) as [Q|Q]; [left; apply DN; exact Q|rewrite D0 by (symmetry; exact Q); simpl; lra]).
  split.
  - rewrite <- exp_0. set (z := fst (h_D csqrt t rho kappa sigma j phi)) in *. destruct (Req_dec (2 * (c + z * v)) 0) as [->|N]; [lra|]. left. apply exp_increasing. nra.
  - intros Q V. specialize (DN Q). rewrite <- exp_0. apply exp_increasing. nra.
Qed.
Print Assumptions heston_characteristic_bounded.

(** ** The jump *)
Theorem heston_call_jumps_refuted : forall csqrt cln n1 n n2 v r q rho kappa theta sigma s, principal_sqrt csqrt -> principal_log cln -> admissible rho kappa sigma ->
  (forall m, In m (n1 ++ n :: n2) -> -1 <= fst m <= 1) -> ~ In (fst n) (map fst (n1 ++ n2)) -> snd n <> 0 ->
  0 < 2 * kappa * theta < sigma ^ 2 -> 2 * kappa * rho <> sigma ->
  exists t k, 0 < t /\ 0 < k /\ ~ continuous (fun y => heston_call csqrt cln (n1 ++ n :: n2) v y r q rho kappa theta sigma s k) t.
Proof.
  intros csqrt cln n1 n n2 v r q rho kappa theta sigma s HS HL (H1 & H2 & H3) Hn NI HW HM HR.
  assert (VP : forall m, In m (n1 ++ n :: n2) -> 0 < visited m <= 50) by (intros m I; specialize (Hn m I); unfold visited; lra).
  assert (IN : In n (n1 ++ n :: n2)) by (apply in_app_iff; right; left; reflexivity).
  assert (M01 : 0 < 2 * kappa * theta / sigma ^ 2 < 1).
  { assert (0 < sigma ^ 2) by (apply pow_lt; exact H1). split; [apply Rmult_lt_0_compat; [lra|apply Rinv_0_lt_compat; assumption]|]. apply Rmult_lt_reg_r with (sigma ^ 2); [assumption|]. unfold Rdiv. rewrite Rmult_assoc, Rinv_l by lra. lra. }
  destruct (f_jumps csqrt cln HS HL v r q rho kappa theta sigma s Two (visited n) H1 H2 ltac:(pose proof (VP n IN); lra) H3 M01 ltac:(simpl; lra)) as (t & Ht & NC).
  exists t. apply Classical_Prop.NNPP. intro K. apply NC.
  assert (CT : forall x, continuous (fun y => heston_call csqrt cln (n1 ++ n :: n2) v y r q rho kappa theta sigma s (exp x)) t).
  { intro x. apply Classical_Prop.NNPP. intro Q. apply K. exists (exp x). split; [exact Ht|]. split; [apply exp_pos|exact Q]. }
  clear K NC. set (h := PI / 51). pose proof PI_RGT_0 as HP. assert (Hh : 0 < h) by (unfold h; lra).
  set (T := term csqrt cln v r q rho kappa theta sigma s).
  assert (CE : forall a y, continuous (fun y : R => exp (a * y)) y) by (intros a y; apply (@ex_derive_continuous R_AbsRing R_NormedModule); eexists; auto_derive; [exact I|reflexivity]).
  assert (SEP : ccont (snd (T Two n)) t).
  { apply (separate h Hh (length (map (T Two) (n1 ++ n2) ++ map (T One) (n1 ++ n :: n2))) (map (T Two) (n1 ++ n2) ++ map (T One) (n1 ++ n :: n2)) (T Two n) t eq_refl).
    - rewrite map_app, !map_map. intro Q. apply in_app_iff in Q. destruct Q as [Q|Q]; apply in_map_iff in Q; destruct Q as (m & E & I); unfold T, term in E; cbn [fst] in E; injection E as E.
      + apply NI. apply in_map_iff. exists m. split; [|exact I]. unfold visited in E. lra.
      + lra.
    - unfold T, term. cbn [fst snd]. pose proof (VP n IN). unfold h. split; [|nra]. assert (visited n * (PI / 51) <= 50 * (PI / 51)) by (apply Rmult_le_compat_r; lra). lra.
    - intros m' Q. apply in_app_iff in Q. assert (B : exists m j, In m (n1 ++ n :: n2) /\ m' = T j m).
      { destruct Q as [Q|Q]; apply in_map_iff in Q; destruct Q as (m & <- & I); exists m; [exists Two|exists One]; (split; [|reflexivity]); [|exact I]. apply in_app_iff in I. apply in_app_iff. destruct I; [left|right; right]; assumption. }
      destruct B as (m & j & I & ->). unfold T, term. cbn [fst snd]. pose proof (VP m I). unfold h. split; [|nra]. assert (visited m * (PI / 51) <= 50 * (PI / 51)) by (apply Rmult_le_compat_r; lra). lra.
    - intro x. apply (continuous_ext (fun y => heston_call csqrt cln (n1 ++ n :: n2) v y r q rho kappa theta sigma s (exp x) - (/ 2 * s * exp (- q * y) - / 2 * exp x * exp (- r * y)))).
      + intro y. rewrite call_terms. fold T. rewrite !map_app. cbn [map]. rewrite !tsum_app.
        change (tsum (T Two n :: map (T Two) n2) x y) with (tv (T Two n) x y + tsum (map (T Two) n2) x y).
        match goal with |- ?u = ?v => change (@eq R u v) end. ring.
      + apply (continuous_minus (fun y => heston_call csqrt cln (n1 ++ n :: n2) v y r q rho kappa theta sigma s (exp x)) (fun y => / 2 * s * exp (- q * y) - / 2 * exp x * exp (- r * y))); [apply CT|].
        apply (continuous_minus (fun y => / 2 * s * exp (- q * y)) (fun y => / 2 * exp x * exp (- r * y))).
        * apply (continuous_mult (fun _ => / 2 * s) (fun y => exp (- q * y))); [apply continuous_const|apply CE].
        * apply (continuous_mult (fun _ => / 2 * exp x) (fun y => exp (- r * y))); [apply continuous_const|apply CE]. }
  set (w0 := / PI * (/ 2 * (50 - 1 / 100000))). assert (W0 : w0 <> 0) by (unfold w0; assert (0 < / PI) by (apply Rinv_0_lt_compat; lra); nra).
  assert (IP : Cmult Ci (RtoC (visited n)) <> RtoC 0) by (intro Q; apply (f_equal snd) in Q; simpl in Q; pose proof (VP n IN); lra).
  apply (cc_ext (fun y => Cmult (Cmult (Cmult Ci (RtoC (visited n))) (RtoC (- exp (r * y) * / (w0 * snd n)))) (snd (T Two n) y))).
  - intro y. unfold T, term. cbn [snd]. fold w0. set (F := h_f csqrt cln v y r q rho kappa theta sigma s Two (visited n)).
    transitivity (Cmult (Cmult (RtoC (- exp (r * y) * / (w0 * snd n))) (RtoC (- exp (- r * y) * w0 * snd n))) F); [field; split; intro Q; apply IP; rewrite Q; ring|].
    rewrite <- RtoC_mult. replace (- exp (r * y) * / (w0 * snd n) * (- exp (- r * y) * w0 * snd n)) with (exp (r * y) * exp (- r * y)) by (field; split; assumption).
    rewrite <- exp_plus. replace (r * y + - r * y) with 0 by ring. rewrite exp_0. ring.
  - apply cc_mult; [|exact SEP]. apply (cc_mult (fun _ => Cmult Ci (RtoC (visited n)))); [apply cc_const|]. split; cbn [fst snd RtoC]; [|apply continuous_const].
    apply (continuous_mult (fun y => - exp (r * y)) (fun _ => / (w0 * snd n))); [apply (continuous_opp (fun y => exp (r * y))); apply CE|apply continuous_const].
Qed.
Print Assumptions heston_call_jumps_refuted.

(** The library's own table qualifies. *)
Definition row (i : nat) : R * R := (QuadModel.dval (nth i QuadModel.ABSCISSAE (QuadModel.dec 0 0)), QuadModel.dval (nth i QuadModel.WEIGHTS (QuadModel.dec 0 0))).
Lemma library_split : library_rule = map row (seq 0 50) ++ row 50 :: map row (seq 51 49).
Proof. change (row 50 :: map row (seq 51 49)) with (map row (seq 50 50)). rewrite <- map_app. reflexivity. Qed.
Definition differs (i : nat) : bool :=
  let x := nth i QuadModel.ABSCISSAE (QuadModel.dec 0 0) in let y := nth 50 QuadModel.ABSCISSAE (QuadModel.dec 0 0) in
  (Z.leb 0 (snd x) && Z.leb 0 (snd y) && negb (Z.eqb (fst x * 10 ^ snd y) (fst y * 10 ^ snd x)))%bool.
Lemma all_differ : forallb differs (seq 0 50 ++ seq 51 49) = true.
Proof. vm_compute. reflexivity. Qed.
Lemma middle_weight : (0 <? fst (nth 50 QuadModel.WEIGHTS (QuadModel.dec 0 0)))%Z && (0 <=? snd (nth 50 QuadModel.WEIGHTS (QuadModel.dec 0 0)))%Z = true.
Proof. vm_compute. reflexivity. Qed.
Lemma differs_spec : forall a b c e : Z, (0 <= b)%Z -> (0 <= e)%Z -> (a * 10 ^ e <> c * 10 ^ b)%Z -> QuadModel.dval (a, b) <> QuadModel.dval (c, e).
Proof.
  intros a b c e Hb He N K. unfold QuadModel.dval in K. cbn [fst snd] in K. apply N. apply eq_IZR. rewrite !mult_IZR.
  assert (P1 : 0 < IZR (10 ^ b)) by (apply IZR_lt, Z.pow_pos_nonneg; lia). assert (P2 : 0 < IZR (10 ^ e)) by (apply IZR_lt, Z.pow_pos_nonneg; lia).
  apply (f_equal (fun z => z * IZR (10 ^ b) * IZR (10 ^ e))) in K. replace (IZR a / IZR (10 ^ b) * IZR (10 ^ b) * IZR (10 ^ e)) with (IZR a * IZR (10 ^ e)) in K by (field; lra).
  replace (IZR c / IZR (10 ^ e) * IZR (10 ^ b) * IZR (10 ^ e)) with (IZR c * IZR (10 ^ b)) in K by (field; lra). exact K.
Qed.
Lemma middle_unique : ~ In (fst (row 50)) (map fst (map row (seq 0 50) ++ map row (seq 51 49))).
Proof.
  rewrite <- map_app, map_map. intro K. apply in_map_iff in K. destruct K as (i & E & I). pose proof all_differ as A. rewrite forallb_forall in A. specialize (A i I). unfold differs in A.
  apply andb_true_iff in A. destruct A as [A A3]. apply andb_true_iff in A. destruct A as [A1 A2]. apply Z.leb_le in A1. apply Z.leb_le in A2. apply negb_true_iff in A3. apply Z.eqb_neq in A3.
  unfold row in E. cbn [fst] in E. destruct (nth i QuadModel.ABSCISSAE (QuadModel.dec 0 0)) as [a b]. destruct (nth 50 QuadModel.ABSCISSAE (QuadModel.dec 0 0)) as [c e].
  exact (differs_spec a b c e A1 A2 A3 E).
Qed.
Lemma middle_nonzero : snd (row 50) <> 0.
Proof.
  pose proof middle_weight as W. apply andb_true_iff in W. destruct W as [W1 W2]. apply Z.ltb_lt in W1. apply Z.leb_le in W2. unfold row. cbn [snd]. destruct (nth 50 QuadModel.WEIGHTS (QuadModel.dec 0 0)) as [a b]. cbn [fst snd] in *.
  unfold QuadModel.dval. cbn [fst snd]. assert (P1 : 0 < IZR (10 ^ b)) by (apply IZR_lt, Z.pow_pos_nonneg; lia). assert (0 < IZR a) by (apply IZR_lt; exact W1). intro K.
  assert (0 < IZR a / IZR (10 ^ b)) by (apply Rmult_lt_0_compat; [assumption|apply Rinv_0_lt_compat; assumption]). lra.
Qed.
Theorem heston_library_jumps_refuted : forall csqrt cln v r q rho kappa theta sigma s, principal_sqrt csqrt -> principal_log cln -> admissible rho kappa sigma ->
  0 < 2 * kappa * theta < sigma ^ 2 -> 2 * kappa * rho <> sigma ->
  exists t k, 0 < t /\ 0 < k /\ ~ continuous (fun y => heston_call csqrt cln library_rule v y r q rho kappa theta sigma s k) t.
Proof.
  intros csqrt cln v r q rho kappa theta sigma s HS HL HA HM HR. rewrite library_split.
  apply heston_call_jumps_refuted; try assumption; [|exact middle_unique|exact middle_nonzero]. intros m I. apply library_rule_range. rewrite library_split. exact I.
Qed.
Print Assumptions heston_library_jumps_refuted.
Example heston_jump_case : principal_sqrt psqrt /\ principal_log plog /\ admissible (- (7 / 10)) 2 (6 / 10) /\ 0 < 2 * 2 * (4 / 100) < (6 / 10) ^ 2 /\ 2 * 2 * (- (7 / 10)) <> 6 / 10.
Proof. split; [exact psqrt_principal|]. split; [exact plog_principal|]. split; [unfold admissible; lra|]. split; lra. Qed.
