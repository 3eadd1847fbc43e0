(** C59: the Bachelier model; C60: structure of the Heston prices. *)
From Coq Require Import Reals List Bool Lra Lia Psatz.
From Coquelicot Require Import Coquelicot.
From Verif Require Import Res InterpModel InterpProofs RList StatModel StatProps PayoffModel SpecialFns BsmModel BsmProofs BsmProps.
Import ListNotations.
Open Scope R_scope.

(** ** C59: Bachelier *)

Theorem bach_parity : forall f k t r v,
  bach_call f k t r v - bach_put f k t r v = exp (- (r * t)) * (f - k) /\ bach_call_delta f k t v - bach_put_delta f k t v = 1.
Proof.
  intros. unfold bach_call, bach_put, bach_call_delta, bach_put_delta, bdf. rewrite ncdf_sym. replace (- r * t) with (- (r * t)) by ring. split; ring.
Qed.
Print Assumptions bach_parity.

Lemma bach_hz f k t r v : 0 < t -> 0 < v ->
  bach_call f k t r v = bdf r t * (v * sqrt t) * hz (bd f k t v) /\ bach_put f k t r v = bdf r t * (v * sqrt t) * hz (- bd f k t v).
Proof.
  intros T V. pose proof (sq_pos t T). pose proof (vs_pos t v T V). unfold bach_call, bach_put, hz. rewrite npdf_even.
  set (d := bd f k t v). assert (E : f - k = d * (v * sqrt t)) by (unfold d, bd; field; lra).
  split; [rewrite E; ring|replace (k - f) with (- (d * (v * sqrt t))) by (rewrite <- E; ring); ring].
Qed.
Theorem bach_bounds : forall f k t r v, 0 < t -> 0 < v ->
  0 < bach_call f k t r v /\ exp (- (r * t)) * (f - k) < bach_call f k t r v /\
  0 < bach_put f k t r v /\ exp (- (r * t)) * (k - f) < bach_put f k t r v /\
  (* at the money *)
  bach_call k k t r v = exp (- (r * t)) * bach_atm_price t v /\ bach_put k k t r v = exp (- (r * t)) * bach_atm_price t v /\
  bach_atm_vol (bach_atm_price t v) t = v.
Proof.
  intros f k t r v T V. pose proof (sq_pos t T) as W. pose proof (vs_pos t v T V) as VW. destruct (bach_hz f k t r v T V) as [C P].
  assert (E0 : 0 < bdf r t * (v * sqrt t)) by (apply Rmult_lt_0_compat; [apply exp_pos|exact VW]).
  assert (Cp : 0 < bach_call f k t r v) by (rewrite C; apply Rmult_lt_0_compat; [exact E0|apply hz_pos]).
  assert (Pp : 0 < bach_put f k t r v) by (rewrite P; apply Rmult_lt_0_compat; [exact E0|apply hz_pos]).
  destruct (bach_parity f k t r v) as [PC _].
  split; [exact Cp|]. split; [lra|]. split; [exact Pp|]. split; [lra|].
  pose proof PI_RGT_0 as PI0. pose proof (sqrt_lt_R0 (2 * PI) ltac:(lra)) as P2.
  assert (A : v * sqrt t * npdf 0 = bach_atm_price t v).
  { unfold npdf, bach_atm_price. replace (- / 2 * 0 ^ 2) with 0 by ring. rewrite exp_0, sqrt_div_alt by lra. field. lra. }
  split; [|split].
  - unfold bach_call, bdf, bd. replace ((k - k) / (v * sqrt t)) with 0 by (field; lra). replace (- r * t) with (- (r * t)) by ring. rewrite <- A. ring.
  - unfold bach_put, bdf, bd. replace ((k - k) / (v * sqrt t)) with 0 by (field; lra). replace (- r * t) with (- (r * t)) by ring. rewrite <- A. ring.
  - unfold bach_atm_vol, bach_atm_price. rewrite !sqrt_div_alt by lra. field. lra.
Qed.
Print Assumptions bach_bounds.
Example bach_case : 0 < / 2 /\ 0 < 20.
Proof. lra. Qed.

Section BachD.
  Variables (f k t r v : R).
  Hypotheses (T : 0 < t) (V : 0 < v).
  Lemma bd_df : is_derive (fun x => bd x k t v) f (1 / (v * sqrt t)).
  Proof. pose proof (sq_pos t T). unfold bd. auto_derive; [exact I|]. field. lra. Qed.
  Lemma bd_dv : is_derive (fun x => bd f k t x) v (- bd f k t v / v).
  Proof. pose proof (sq_pos t T). pose proof (vs_pos t v T V). unfold bd. auto_derive; [repeat split; lra|]. field. lra. Qed.
  Lemma bd_dt : is_derive (fun x => bd f k x v) t (- bd f k t v / (2 * t)).
  Proof.
    pose proof (sq_pos t T). pose proof (vs_pos t v T V). unfold bd. auto_derive; [repeat split; lra|].
    set (w := sqrt t) in *. assert (E : t = w * w) by (symmetry; apply sq_sq; exact T). rewrite E. field. lra.
  Qed.
End BachD.

(** the reported Greeks are the derivatives of the *undiscounted* price: the
    derivatives of the price carry an extra discount factor (and theta a
    financing term), so they agree only when r t = 0 *)
Theorem bach_greeks : forall f k t r v, 0 < t -> 0 < v ->
  let df := exp (- (r * t)) in
  is_derive (fun x => bach_call x k t r v) f (df * bach_call_delta f k t v) /\
  is_derive (fun x => bach_put x k t r v) f (df * bach_put_delta f k t v) /\
  is_derive (fun x => bach_call_delta x k t v) f (bach_gamma f k t v) /\
  is_derive (fun x => bach_put_delta x k t v) f (bach_gamma f k t v) /\
  is_derive (fun x => bach_call f k t r x) v (df * bach_vega f k t v) /\
  is_derive (fun x => bach_put f k t r x) v (df * bach_vega f k t v) /\
  is_derive (fun x => bach_call f k x r v) t (- (df * bach_theta f k t v) - r * bach_call f k t r v) /\
  is_derive (fun x => bach_put f k x r v) t (- (df * bach_theta f k t v) - r * bach_put f k t r v).
Proof.
  intros f k t r v T V df. pose proof (sq_pos t T) as W. pose proof (vs_pos t v T V) as VW. unfold df.
  assert (Edf : bdf r t = exp (- (r * t))) by (unfold bdf; f_equal; ring). rewrite <- Edf. clear df Edf.
  set (d := bd f k t v). assert (Ed : d * (v * sqrt t) = f - k) by (unfold d, bd; field; lra).
  assert (Ed' : f - k = d * (v * sqrt t)) by lra. assert (Ek : k - f = - (d * (v * sqrt t))) by lra.
  split; [|split; [|split; [|split; [|split; [|split; [|split]]]]]].
  - unfold bach_call. eapply isd_eq; [apply (d_mul (fun _ => bdf r t)); [apply d_const|apply d_add; [apply (d_mul (fun x => x - k)); [apply d_sub; [apply d_id|apply d_const]|apply d_ncdf, bd_df; assumption]|apply d_mul; [apply d_const|apply d_npdf, bd_df; assumption]]]|].
    cbv beta. unfold bach_call_delta. fold d. rewrite Ed'. field. lra.
  - unfold bach_put. eapply isd_eq; [apply (d_mul (fun _ => bdf r t)); [apply d_const|apply d_add; [apply (d_mul (fun x => k - x)); [apply d_sub; [apply d_const|apply d_id]|apply d_ncdf, d_opp, bd_df; assumption]|apply d_mul; [apply d_const|apply d_npdf, bd_df; assumption]]]|].
    cbv beta. unfold bach_put_delta. fold d. rewrite Ek, npdf_even, ncdf_sym. field. lra.
  - unfold bach_call_delta, bach_gamma. eapply isd_eq; [apply d_ncdf, bd_df; assumption|]. cbv beta; fold d. field. lra.
  - unfold bach_put_delta, bach_gamma. eapply isd_eq; [apply d_sub; [apply d_ncdf, bd_df; assumption|apply d_const]|]. cbv beta; fold d. field. lra.
  - unfold bach_call. eapply isd_eq; [apply (d_mul (fun _ => bdf r t)); [apply d_const|apply d_add; [apply (d_mul (fun x => f - k)); [apply d_const|apply d_ncdf, bd_dv; assumption]|apply d_mul; [apply vsqt_dv; assumption|apply d_npdf, bd_dv; assumption]]]|].
    cbv beta. unfold bach_vega. fold d. rewrite Ed'. field. lra.
  - unfold bach_put. eapply isd_eq; [apply (d_mul (fun _ => bdf r t)); [apply d_const|apply d_add; [apply (d_mul (fun x => k - f)); [apply d_const|apply d_ncdf, d_opp, bd_dv; assumption]|apply d_mul; [apply vsqt_dv; assumption|apply d_npdf, bd_dv; assumption]]]|].
    cbv beta. unfold bach_vega. fold d. rewrite Ek, npdf_even. field. lra.
  - assert (E : is_derive (fun x => bdf r x) t (- r * bdf r t)) by (unfold bdf; auto_derive; [exact I|ring]).
    unfold bach_call. eapply isd_eq; [apply (d_mul (fun x => bdf r x)); [exact E|apply d_add; [apply (d_mul (fun x => f - k)); [apply d_const|apply d_ncdf, bd_dt; assumption]|apply d_mul; [apply vsqt_dt; assumption|apply d_npdf, bd_dt; assumption]]]|].
    cbv beta. unfold bach_theta. fold d. rewrite Ed'. clearbody d. pose proof (sq_sq t T) as Q. set (w := sqrt t) in *. generalize (bdf r t). intros B. replace t with (w * w) by exact Q. field. lra.
  - assert (E : is_derive (fun x => bdf r x) t (- r * bdf r t)) by (unfold bdf; auto_derive; [exact I|ring]).
    unfold bach_put. eapply isd_eq; [apply (d_mul (fun x => bdf r x)); [exact E|apply d_add; [apply (d_mul (fun x => k - f)); [apply d_const|apply d_ncdf, d_opp, bd_dt; assumption]|apply d_mul; [apply vsqt_dt; assumption|apply d_npdf, bd_dt; assumption]]]|].
    cbv beta. unfold bach_theta. fold d. rewrite Ek, npdf_even. clearbody d. pose proof (sq_sq t T) as Q. set (w := sqrt t) in *. generalize (bdf r t). intros B. replace t with (w * w) by exact Q. field. lra.
Qed.
Print Assumptions bach_greeks.
Theorem bach_delta_refuted : forall f k t r v, 0 < t -> 0 < v -> r <> 0 ->
  exists u, is_derive (fun x => bach_call x k t r v) f u /\ u <> bach_call_delta f k t v.
Proof.
  intros f k t r v T V N. destruct (bach_greeks f k t r v T V) as (D & _). eexists. split; [exact D|].
  unfold bach_call_delta. pose proof (ncdf_bound (bd f k t v)) as [B _]. intros E.
  assert (X : exp (- (r * t)) = 1) by (apply Rmult_eq_reg_r with (ncdf (bd f k t v)); lra).
  rewrite <- exp_0 in X. apply exp_inv in X. assert (r * t = 0) by lra. apply Rmult_integral in H. lra.
Qed.
Print Assumptions bach_delta_refuted.
Example bach_delta_case : 0 < 1 /\ 0 < 20 /\ / 20 <> 0.
Proof. lra. Qed.

(** implied volatility: not a number at the money *)
Theorem bach_iv_atm_refuted : forall price k t call, price <> 0 -> bach_iv call price k k t = None.
Proof.
  intros price k t call N. unfold bach_iv. replace (k - k) with 0 by ring. rewrite Rabs_R0.
  assert (M : (if call then 2 * price - 0 else 2 * price + 0) <> 0) by (destruct call; lra).
  set (m := if call then 2 * price - 0 else 2 * price + 0) in *. clearbody m. unfold fdiv at 1. destruct (Reqb_spec m 0); [contradiction|].
  replace (0 / m) with 0 by (field; exact M). unfold fatanh. destruct (Rltb_spec (-1) 0); [|lra]. destruct (Rltb_spec 0 1); [|lra]. cbn [andb].
  replace ((1 + 0) / (1 - 0)) with 1 by field. rewrite ln_1, Rmult_0_r. unfold fdiv. destruct (Reqb_spec 0 0); [reflexivity|lra].
Qed.
Print Assumptions bach_iv_atm_refuted.
Lemma poly_pos cs x i : 0 < x -> cs <> [] -> (forall c, In c cs -> 0 < c) -> 0 < poly_from i cs x.
Proof.
  intros X. unfold poly_from. revert i. induction cs as [|c cs IH]; intros i NE H; [congruence|]. cbn [length seq combine map].
  change (rsum (?a :: ?l)) with (a + rsum l). cbn [fst snd]. 
  assert (0 < c * x ^ i) by (apply Rmult_lt_0_compat; [apply H; left; reflexivity|apply pow_lt, X]).
  destruct cs as [|c' cs].
  - cbn. unfold rsum; simpl. lra.
  - assert (0 < rsum (map (fun p : nat * R => snd p * x ^ fst p) (combine (seq (S i) (length (c' :: cs))) (c' :: cs)))) by (apply IH; [discriminate|intros; apply H; right; assumption]).
    lra.
Qed.
(** a call and the put with the same strike, priced by parity, never get the
    same implied volatility *)
Theorem bach_iv_parity_refuted : forall price f k t x y, 0 < t -> f <> k ->
  bach_iv true price f k t = Some x -> bach_iv false (price - (f - k)) f k t = Some y -> x <> y.
Proof.
  intros price f k t x y T N Hx Hy. unfold bach_iv in Hx, Hy. cbv beta zeta iota in Hx, Hy.
  replace (2 * (price - (f - k)) + (f - k)) with (2 * price - (f - k)) in Hy by ring.
  set (m := 2 * price - (f - k)) in *. clearbody m. unfold fdiv at 1 in Hx. unfold fdiv at 1 in Hy. destruct (Reqb_spec m 0) as [|M]; [discriminate|].
  set (v := Rabs (f - k) / m) in *. assert (V : v <> 0).
  { unfold v, Rdiv. apply Rmult_integral_contrapositive_currified; [apply Rabs_no_R0; lra|apply Rinv_neq_0_compat; exact M]. }
  clearbody v. unfold fatanh in Hx, Hy. destruct (Rltb_spec (-1) v) as [V1|]; [|discriminate]. destruct (Rltb_spec v 1) as [V2|]; [|discriminate]. cbn [andb] in Hx, Hy.
  set (a := / 2 * ln ((1 + v) / (1 - v))) in *.
  assert (A : 0 < v / a).
  { assert (Q : 0 < (1 + v) / (1 - v)) by (apply Rdiv_lt_0_compat; lra).
    destruct (Rtotal_order v 0) as [L|[L|L]]; [|contradiction|].
    - assert (ln ((1 + v) / (1 - v)) < 0).
      { rewrite <- ln_1. apply ln_increasing; [exact Q|]. apply Rmult_lt_reg_r with (1 - v); [lra|]. unfold Rdiv. rewrite Rmult_assoc, Rinv_l by lra. lra. }
      replace (v / a) with (- v / - a) by (field; unfold a; lra). apply Rdiv_lt_0_compat; unfold a; lra.
    - assert (0 < ln ((1 + v) / (1 - v))).
      { rewrite <- ln_1. apply ln_increasing; [lra|]. apply Rmult_lt_reg_r with (1 - v); [lra|]. unfold Rdiv. rewrite Rmult_assoc, Rinv_l by lra. lra. }
      apply Rdiv_lt_0_compat; unfold a; lra. }
  clearbody a. unfold fdiv at 1 in Hx. unfold fdiv at 1 in Hy. destruct (Reqb_spec a 0); [discriminate|].
  set (eta := v / a) in *. clearbody eta. clear n V V1 V2.
  assert (S1 : 0 < poly_from 0 iv_A eta).
  { apply poly_pos; [exact A|discriminate|]. unfold iv_A. intros c Hc. cbn [In] in Hc. repeat destruct Hc as [<-|Hc]; try (apply Rdiv_lt_0_compat; [lra|apply pow_lt; lra]). destruct Hc. }
  assert (S2 : poly_from 0 iv_B eta = 499053415358942 / 10 ^ 13 + poly_from 1 (tl iv_B) eta).
  { unfold poly_from, iv_B. cbn [length seq combine map tl]. change (rsum (?a :: ?l)) with (a + rsum l). cbn [fst snd pow]. rewrite Rmult_1_r. reflexivity. }
  rewrite S2 in Hx. set (B := poly_from 1 (tl iv_B) eta) in *. clearbody B. set (b0 := 499053415358942 / 10 ^ 13) in *.
  assert (B0 : 0 < b0) by (apply Rdiv_lt_0_compat; [lra|apply pow_lt; lra]). clearbody b0.
  pose proof (sqrt_lt_R0 eta A) as SE. set (n := sqrt eta * poly_from 0 iv_A eta) in *. assert (N0 : 0 < n) by (apply Rmult_lt_0_compat; assumption). clearbody n.
  unfold fdiv in Hx, Hy. destruct (Reqb_spec (1 + (b0 + B)) 0) as [|D1]; [discriminate|]. destruct (Reqb_spec (1 + B) 0) as [|D2]; [discriminate|].
  cbn [option_map] in Hx, Hy. pose proof PI_RGT_0 as P0.
  assert (Q : 0 < sqrt (PI / 2 / t)) by (apply sqrt_lt_R0; apply Rdiv_lt_0_compat; lra).
  set (q := sqrt (PI / 2 / t)) in *. clearbody q. injection Hx as <-. injection Hy as <-. intros E.
  assert (E2 : n / (1 + (b0 + B)) = n / (1 + B)).
  { apply Rmult_eq_reg_l with (q * m); [exact E|]. apply Rmult_integral_contrapositive_currified; lra. }
  assert (E3 : n * (1 + B) = n * (1 + (b0 + B))).
  { replace (n * (1 + B)) with (n / (1 + (b0 + B)) * ((1 + (b0 + B)) * (1 + B))) by (field; exact D1). rewrite E2. field. exact D2. }
  apply Rmult_eq_reg_l in E3; lra.
Qed.
Print Assumptions bach_iv_parity_refuted.

(** ** C60: Heston *)

Lemma cexp_add z w : cexp (Cplus z w) = Cmult (cexp z) (cexp w).
Proof.
  destruct z as [a b], w as [c d]. unfold cexp, Cplus, Cmult. cbn [fst snd]. rewrite exp_plus, cos_plus, sin_plus. f_equal; ring.
Qed.
Lemma d_rsum (l : list (R * R)) (F : R * R -> R -> R) (G : R * R -> R) x : (forall n, In n l -> is_derive (F n) x (G n)) ->
  is_derive (fun y => rsum (map (fun n => F n y) l)) x (rsum (map G l)).
Proof.
  induction l as [|n l IH]; intros H.
  { apply (isd_ext (fun _ => 0)); [reflexivity|]. change (rsum (map G [])) with 0. apply d_const. }
  cbn [map]. change (rsum (G n :: map G l)) with (G n + rsum (map G l)).
  apply (isd_ext (fun y => F n y + rsum (map (fun n => F n y) l))); [reflexivity|].
  apply d_add; [apply H; left; reflexivity|apply IH; intros; apply H; right; assumption].
Qed.

Section HestonProofs.
  Variables (csqrt cln : C -> C) (nodes : list (R * R)) (v t r q rho kappa theta sigma : R).
  Let W (j : switch) (phi : R) : C :=
    Cplus (h_C csqrt cln t r q rho kappa theta sigma j phi) (Cmult (h_D csqrt t rho kappa sigma j phi) v).
  Notation re := (h_re csqrt cln v t r q rho kappa theta sigma).
  Notation hf := (h_f csqrt cln v t r q rho kappa theta sigma).

  Lemma h_num s k j phi : Cmult (hf s j phi) (cexp (Cmult (Cmult (Copp Ci) phi) (RtoC (ln k)))) =
    (exp (fst (W j phi)) * cos (snd (W j phi) + phi * (ln s - ln k)), exp (fst (W j phi)) * sin (snd (W j phi) + phi * (ln s - ln k))).
  Proof.
    unfold h_f. rewrite <- cexp_add. fold (W j phi). destruct (W j phi) as [a b]. unfold cexp, Cplus, Cmult, Copp, Ci, RtoC. cbn [fst snd].
    replace (a + (((0 * phi - 1 * 0) * ln s - (0 * 0 + 1 * phi) * 0)) + ((- 0 * phi - - (1) * 0) * ln k - (- 0 * 0 + - (1) * phi) * 0)) with a by ring.
    replace (b + ((0 * phi - 1 * 0) * 0 + (0 * 0 + 1 * phi) * ln s) + ((- 0 * phi - - (1) * 0) * 0 + (- 0 * 0 + - (1) * phi) * ln k)) with (b + phi * (ln s - ln k)) by ring.
    reflexivity.
  Qed.
  Lemma h_re_eq s k j phi : phi <> 0 -> re s k j phi = exp (fst (W j phi)) * sin (snd (W j phi) + phi * (ln s - ln k)) / phi.
  Proof.
    intros N. unfold h_re. rewrite h_num. unfold Cdiv, Cmult, Cinv, Ci, RtoC. cbn [fst snd]. field. exact N.
  Qed.

  (** nodes in [-1, 1], as in the tables *)
  Hypothesis Hn : forall n, In n nodes -> -1 <= fst n <= 1.
  Lemma node_pos n : In n nodes -> 0 < / 2 * (50 - 1 / 100000) * fst n + / 2 * (1 / 100000 + 50).
  Proof. intros I. specialize (Hn n I). lra. Qed.

  Lemma integrate_ext f g : (forall phi, 0 < phi -> f phi = g phi) -> integrate nodes f (1 / 100000) 50 = integrate nodes g (1 / 100000) 50.
  Proof.
    intros E. unfold integrate. f_equal. apply rsum_map_ext. intros n I. rewrite E; [reflexivity|]. apply node_pos, I.
  Qed.
  Lemma P_scale c s k j : 0 < c -> 0 < s -> 0 < k ->
    h_P csqrt cln nodes v t r q rho kappa theta sigma (c * s) (c * k) j = h_P csqrt cln nodes v t r q rho kappa theta sigma s k j.
  Proof.
    intros C S K. unfold h_P. f_equal. f_equal. apply integrate_ext. intros phi Hp. rewrite !h_re_eq by lra. rewrite !ln_mult by assumption.
    replace (ln c + ln s - (ln c + ln k)) with (ln s - ln k) by ring. reflexivity.
  Qed.
  Lemma P_ds s k : 0 < s -> is_derive (fun x => h_P csqrt cln nodes v t r q rho kappa theta sigma x k One) s
    (/ PI * (integrate nodes (fun phi => fst (Cmult (cexp (Cmult (Cmult (Copp Ci) phi) (RtoC (ln k)))) (hf s One phi))) (1 / 100000) 50 * / s)).
  Proof.
    intros S. unfold h_P.
    eapply isd_eq; [apply d_add; [apply d_const|apply (d_mul (fun _ => / PI)); [apply d_const|]]|].
    - unfold integrate at 1. apply (d_mul (fun _ => / 2 * (50 - 1 / 100000))); [apply d_const|].
      apply (d_rsum nodes (fun n y => snd n * re y k One (/ 2 * (50 - 1 / 100000) * fst n + / 2 * (1 / 100000 + 50)))
        (fun n => / s * (snd n * fst (Cmult (cexp (Cmult (Cmult (Copp Ci) (RtoC (/ 2 * (50 - 1 / 100000) * fst n + / 2 * (1 / 100000 + 50)))) (RtoC (ln k)))) (hf s One (/ 2 * (50 - 1 / 100000) * fst n + / 2 * (1 / 100000 + 50))))))).
      intros n I. pose proof (node_pos n I) as N. set (phi := / 2 * (50 - 1 / 100000) * fst n + / 2 * (1 / 100000 + 50)) in *.
      rewrite Cmult_comm, h_num. cbn [fst].
      apply (isd_ext (fun y => snd n * (exp (fst (W One phi)) * sin (snd (W One phi) + phi * (ln y - ln k)) / phi))).
      + intros y. rewrite h_re_eq by lra. reflexivity.
      + clearbody phi. generalize (W One phi). intros w. generalize (fst w) (snd w). intros wr wi. auto_derive; [exact S|]. unfold Rminus. field. lra.
    - cbv beta. unfold integrate. rewrite (rsum_map_scal _ (/ s)). ring.
  Qed.
End HestonProofs.

Theorem heston_parity : forall csqrt cln nodes v t r q rho kappa theta sigma s k,
  let call := heston_call csqrt cln nodes v t r q rho kappa theta sigma in let put := heston_put csqrt cln nodes v t r q rho kappa theta sigma in
  call s k - put s k = s * exp (- (q * t)) - k * exp (- (r * t)) /\
  heston_call_delta csqrt cln nodes v t r q rho kappa theta sigma s k - heston_put_delta csqrt cln nodes v t r q rho kappa theta sigma s k = exp (- (q * t)) /\
  heston_call_rho csqrt cln nodes v t r q rho kappa theta sigma s k - heston_put_rho csqrt cln nodes v t r q rho kappa theta sigma s k = k * t * exp (- (r * t)) /\
  (* Euler decomposition: spot delta plus strike delta make up the price *)
  call s k = s * heston_call_delta csqrt cln nodes v t r q rho kappa theta sigma s k - k * (exp (- (r * t)) * h_P csqrt cln nodes v t r q rho kappa theta sigma s k Two).
Proof.
  intros. unfold call, put, heston_put_delta, heston_call_delta, heston_call_rho, heston_put_rho, heston_put, heston_call.
  replace (- r * t) with (- (r * t)) by ring. replace (- q * t) with (- (q * t)) by ring. repeat split; ring.
Qed.
Print Assumptions heston_parity.
(** prices scale with the currency unit, whatever branch the complex square
    root and logarithm take and whatever the quadrature nodes in [-1,1] *)
Theorem heston_homogeneous : forall csqrt cln nodes v t r q rho kappa theta sigma c s k, (forall n, In n nodes -> -1 <= fst n <= 1) ->
  0 < c -> 0 < s -> 0 < k ->
  heston_call csqrt cln nodes v t r q rho kappa theta sigma (c * s) (c * k) = c * heston_call csqrt cln nodes v t r q rho kappa theta sigma s k /\
  heston_put csqrt cln nodes v t r q rho kappa theta sigma (c * s) (c * k) = c * heston_put csqrt cln nodes v t r q rho kappa theta sigma s k /\
  heston_call_delta csqrt cln nodes v t r q rho kappa theta sigma (c * s) (c * k) = heston_call_delta csqrt cln nodes v t r q rho kappa theta sigma s k.
Proof.
  intros. unfold heston_put, heston_call, heston_call_delta. rewrite !P_scale by assumption. repeat split; ring.
Qed.
Print Assumptions heston_homogeneous.
Example heston_nodes_case : forall n, In n [(-1, / 2); (0, 1); (1, / 2)] -> -1 <= fst n <= 1.
Proof. intros n [<-|[<-|[<-|[]]]]; cbn; lra. Qed.
(** gamma is exactly the spot derivative of the code's delta, for calls and puts *)
Theorem heston_gamma_is_delta_derivative : forall csqrt cln nodes v t r q rho kappa theta sigma s k, (forall n, In n nodes -> -1 <= fst n <= 1) -> 0 < s ->
  is_derive (fun x => heston_call_delta csqrt cln nodes v t r q rho kappa theta sigma x k) s (heston_gamma csqrt cln nodes v t r q rho kappa theta sigma s k) /\
  is_derive (fun x => heston_put_delta csqrt cln nodes v t r q rho kappa theta sigma x k) s (heston_gamma csqrt cln nodes v t r q rho kappa theta sigma s k).
Proof.
  intros csqrt cln nodes v t r q rho kappa theta sigma s k Hn S. pose proof PI_RGT_0.
  assert (D : is_derive (fun x => heston_call_delta csqrt cln nodes v t r q rho kappa theta sigma x k) s (heston_gamma csqrt cln nodes v t r q rho kappa theta sigma s k)).
  { unfold heston_call_delta. eapply isd_eq; [apply (d_mul (fun _ => exp (- q * t))); [apply d_const|apply P_ds; assumption]|].
    cbv beta. unfold heston_gamma. field. lra. }
  split; [exact D|]. unfold heston_put_delta. eapply isd_eq; [apply d_sub; [exact D|apply d_const]|ring].
Qed.
Print Assumptions heston_gamma_is_delta_derivative.

(** The coefficient tables meet at the money: there the rational factor of the
    call formula is 1 up to 1e-14, so it degenerates to the at-the-money formula. *)
Theorem bach_iv_tables : Rabs (poly_from 0 iv_A 1 / (1 + poly_from 0 iv_B 1) - 1) <= / 10 ^ 14.
Proof.
  assert (A : exists a, poly_from 0 iv_A 1 = a /\ exists b, poly_from 0 iv_B 1 = b /\ Rabs (a - (1 + b)) <= / 10 ^ 10 /\ 46222 < b).
  { unfold poly_from, iv_A, iv_B. cbn [length seq combine map]. unfold rsum. cbn [fold_right fst snd]. rewrite !pow1.
    eexists. split; [reflexivity|]. eexists. split; [reflexivity|]. split; [apply Rabs_le; split|]; lra. }
  destruct A as (a & -> & b & -> & H & L). replace (a / (1 + b) - 1) with ((a - (1 + b)) / (1 + b)) by (field; lra).
  rewrite Rabs_div by lra. rewrite (Rabs_right (1 + b)) by lra. apply Rle_div_l; [lra|]. eapply Rle_trans; [exact H|].
  apply Rle_trans with (/ 10 ^ 14 * 46222); [lra|]. apply Rmult_le_compat_l; lra.
Qed.
Print Assumptions bach_iv_tables.
