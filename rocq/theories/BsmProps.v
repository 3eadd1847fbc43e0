(** C33: put-call parity; C34: Greeks; C35: bounds and monotonicity; C36: SABR;
    C59: Bachelier; C60: Heston. *)
From Coq Require Import Reals List Bool Lra Lia Psatz.
From Coquelicot Require Import Coquelicot.
From Verif Require Import Res InterpModel InterpProofs RList StatModel StatProps PayoffModel SpecialFns BsmModel BsmProofs.
Import ListNotations.
Open Scope R_scope.

(** ** C33 *)

Theorem bsm_parity : forall s k t r b v,
  call_price s k t r b v - put_price s k t r b v = s * exp ((b - r) * t) - k * exp (- r * t) /\
  call_delta s k t r b v - put_delta s k t r b v = exp ((b - r) * t).
Proof. intros. unfold call_price, put_price, call_delta, put_delta. rewrite !ncdf_sym. split; ring. Qed.
Print Assumptions bsm_parity.

Theorem gbsm_parity : forall s r q v k t,
  g_price (BlackScholes73 s r v) k t Call - g_price (BlackScholes73 s r v) k t Put = s - k * exp (- (r * t)) /\
  g_price (Merton73 s r q v) k t Call - g_price (Merton73 s r q v) k t Put = s * exp (- (q * t)) - k * exp (- (r * t)) /\
  g_price (Black76 s r v) k t Call - g_price (Black76 s r v) k t Put = exp (- (r * t)) * (s - k) /\
  g_price (Asay82 s v) k t Call - g_price (Asay82 s v) k t Put = s - k /\
  g_price (GarmanKohlhagen83 s r q v) k t Call - g_price (GarmanKohlhagen83 s r q v) k t Put = s * exp (- (q * t)) - k * exp (- (r * t)).
Proof.
  intros. unfold g_price, dispatch. cbn [g_s g_r g_b g_v]. rewrite !(fun a b c d e f => proj1 (bsm_parity a b c d e f)).
  replace ((r - r) * t) with 0 by ring. replace ((r - q - r) * t) with (- (q * t)) by ring. replace ((0 - r) * t) with (- (r * t)) by ring.
  replace (- r * t) with (- (r * t)) by ring. replace ((0 - 0) * t) with 0 by ring. replace (- 0 * t) with 0 by ring. rewrite exp_0.
  repeat split; ring.
Qed.
Print Assumptions gbsm_parity.

(** the date-based pricer computes the same numbers *)
Theorem bsm_opt_agrees : forall o, 0 < o_v o -> 0 < o_t o ->
  o_d1 o = d1 (o_s o) (o_k o) (o_t o) (o_b o) (o_v o) /\ o_d2 o = d2 (o_s o) (o_k o) (o_t o) (o_b o) (o_v o) /\
  o_price o = match o_tf o with Call => call_price | Put => put_price end (o_s o) (o_k o) (o_t o) (o_r o) (o_b o) (o_v o) /\
  o_gamma o = call_gamma (o_s o) (o_k o) (o_t o) (o_r o) (o_b o) (o_v o) /\
  o_vega o = call_vega (o_s o) (o_k o) (o_t o) (o_r o) (o_b o) (o_v o) /\
  o_rho o = match o_tf o with Call => call_rho | Put => put_rho end (o_s o) (o_k o) (o_t o) (o_r o) (o_b o) (o_v o).
Proof.
  intros [b s k v r t tf]. cbn. intros V T.
  assert (E1 : o_d1 (BsmOpt b s k v r t tf) = d1 s k t b v).
  { unfold o_d1, d1. cbn [o_v o_t o_s o_k o_b]. field. pose proof (sq_pos t T). lra. }
  assert (E2 : o_d2 (BsmOpt b s k v r t tf) = d2 s k t b v) by (unfold o_d2, d2; cbn [o_v o_t]; rewrite E1; reflexivity).
  split; [exact E1|]. split; [exact E2|]. unfold o_price, o_gamma, o_vega, o_rho. cbn [o_v o_t o_s o_k o_b o_r o_tf]. rewrite E1, E2.
  destruct tf; repeat split; reflexivity.
Qed.
Print Assumptions bsm_opt_agrees.
Example bsm_opt_case : 0 < o_v (BsmOpt (/ 20) 100 110 (/ 5) (/ 20) 1 Call) /\ 0 < o_t (BsmOpt (/ 20) 100 110 (/ 5) (/ 20) 1 Call).
Proof. cbn. lra. Qed.

(** ** C34 *)

Definition adm (s k t v : R) : Prop := 0 < s /\ 0 < k /\ 0 < t /\ 0 < v.
Example adm_case : adm 100 110 (/ 2) (/ 5).
Proof. unfold adm. lra. Qed.

Ltac pos_sq T := pose proof (sq_pos _ T); pose proof (sq_sq _ T).

Section Greeks.
  Variables (s k t r b v : R).
  Hypothesis P : adm s k t v.

  Lemma put_form x y t' r' b' v' : put_price x y t' r' b' v' = - (x * exp ((b' - r') * t')) * ncdf (- d1 x y t' b' v') + y * exp (- r' * t') * ncdf (- d2 x y t' b' v').
  Proof. unfold put_price. ring. Qed.

  Lemma delta_ok : is_derive (fun x => call_price x k t r b v) s (call_delta s k t r b v) /\
                   is_derive (fun x => put_price x k t r b v) s (put_delta s k t r b v).
  Proof.
    destruct P as (S & K & T & V). split.
    - eapply isd_eq; [apply (gen_call (fun x => x * exp ((b - r) * t)) (fun _ => k * exp (- r * t)) (fun x => d1 x k t b v) (fun x => d2 x k t b v) s (exp ((b - r) * t)) 0);
        [auto_derive; [exact I|ring]|apply d_const|apply d1_ds; assumption|apply d2_ds; assumption|apply key_r; assumption]|]. cbv beta.
      unfold call_delta. ring.
    - apply (isd_ext _ _ s _ (fun y => eq_sym (put_form y k t r b v))).
      eapply isd_eq; [apply (gen_put (fun x => x * exp ((b - r) * t)) (fun _ => k * exp (- r * t)) (fun x => d1 x k t b v) (fun x => d2 x k t b v) s (exp ((b - r) * t)) 0);
        [auto_derive; [exact I|ring]|apply d_const|apply d1_ds; assumption|apply d2_ds; assumption|apply key_r; assumption]|]. cbv beta.
      unfold put_delta. rewrite !ncdf_sym. ring.
  Qed.
  Lemma strike_delta_ok : is_derive (fun x => call_price s x t r b v) k (- exp (- r * t) * ncdf (d2 s k t b v)) /\
                          is_derive (fun x => put_price s x t r b v) k (exp (- r * t) * ncdf (- d2 s k t b v)).
  Proof.
    destruct P as (S & K & T & V). split.
    - eapply isd_eq; [apply (gen_call (fun x => s * exp ((b - r) * t)) (fun x => x * exp (- r * t)) (fun x => d1 s x t b v) (fun x => d2 s x t b v) k 0 (exp (- r * t)));
        [apply d_const|auto_derive; [exact I|ring]|apply d1_dk; assumption|apply d2_dk; assumption|apply key_r; assumption]|]. cbv beta. ring.
    - apply (isd_ext _ _ k _ (fun y => eq_sym (put_form s y t r b v))).
      eapply isd_eq; [apply (gen_put (fun x => s * exp ((b - r) * t)) (fun x => x * exp (- r * t)) (fun x => d1 s x t b v) (fun x => d2 s x t b v) k 0 (exp (- r * t)));
        [apply d_const|auto_derive; [exact I|ring]|apply d1_dk; assumption|apply d2_dk; assumption|apply key_r; assumption]|]. cbv beta. ring.
  Qed.
  Lemma vega_ok : is_derive (fun x => call_price s k t r b x) v (call_vega s k t r b v) /\
                  is_derive (fun x => put_price s k t r b x) v (put_vega s k t r b v).
  Proof.
    destruct P as (S & K & T & V). split.
    - eapply isd_eq; [apply (gen_call (fun x => s * exp ((b - r) * t)) (fun x => k * exp (- r * t)) (fun x => d1 s k t b x) (fun x => d2 s k t b x) v 0 0);
        [apply d_const|apply d_const|apply d1_dv; assumption|apply d2_dv; assumption|apply key_r; assumption]|]. unfold call_vega. ring.
    - apply (isd_ext _ _ v _ (fun y => eq_sym (put_form s k t r b y))).
      eapply isd_eq; [apply (gen_put (fun x => s * exp ((b - r) * t)) (fun x => k * exp (- r * t)) (fun x => d1 s k t b x) (fun x => d2 s k t b x) v 0 0);
        [apply d_const|apply d_const|apply d1_dv; assumption|apply d2_dv; assumption|apply key_r; assumption]|]. unfold put_vega, call_vega. ring.
  Qed.
  Lemma theta_ok : is_derive (fun x => call_price s k x r b v) t (- call_theta s k t r b v) /\
                   is_derive (fun x => put_price s k x r b v) t (- put_theta s k t r b v).
  Proof.
    destruct P as (S & K & T & V). pos_sq T. split.
    - eapply isd_eq; [apply (gen_call (fun x => s * exp ((b - r) * x)) (fun x => k * exp (- r * x)) (fun x => d1 s k x b v) (fun x => d2 s k x b v) t (s * (b - r) * exp ((b - r) * t)) (- r * k * exp (- r * t)));
        [auto_derive; [exact I|ring]|auto_derive; [exact I|ring]|apply d1_dt; assumption|apply d2_dt; assumption|apply key_r; assumption]|]. cbv beta.
      unfold call_theta. field. lra.
    - apply (isd_ext _ _ t _ (fun y => eq_sym (put_form s k y r b v))).
      eapply isd_eq; [apply (gen_put (fun x => s * exp ((b - r) * x)) (fun x => k * exp (- r * x)) (fun x => d1 s k x b v) (fun x => d2 s k x b v) t (s * (b - r) * exp ((b - r) * t)) (- r * k * exp (- r * t)));
        [auto_derive; [exact I|ring]|auto_derive; [exact I|ring]|apply d1_dt; assumption|apply d2_dt; assumption|apply key_r; assumption]|]. cbv beta.
      unfold put_theta. field. lra.
  Qed.
  (** rate sensitivity with the carry moving along: b = r - q *)
  Lemma rho_ok : is_derive (fun x => call_price s k t x (x - (r - b)) v) r (call_rho s k t r b v) /\
                 is_derive (fun x => put_price s k t x (x - (r - b)) v) r (put_rho s k t r b v).
  Proof.
    destruct P as (S & K & T & V). pos_sq T.
    assert (D1 : is_derive (fun x => d1 s k t (x - (r - b)) v) r (sqrt t / v)).
    { eapply isd_eq; [apply (is_derive_comp (fun x => d1 s k t x v) (fun x => x - (r - b)) r (sqrt t / v) 1); [replace (r - (r - b)) with b by ring; apply d1_db; assumption|auto_derive; [exact I|ring]]|]. cbv beta.
      unfold scal; simpl; unfold mult; simpl. ring. }
    assert (D2 : is_derive (fun x => d2 s k t (x - (r - b)) v) r (sqrt t / v)).
    { unfold d2. eapply isd_eq; [apply d_sub; [exact D1|apply d_const]|ring]. }
    assert (K' : s * exp ((r - (r - b) - r) * t) * npdf (d1 s k t (r - (r - b)) v) = k * exp (- r * t) * npdf (d2 s k t (r - (r - b)) v)).
    { replace (r - (r - b)) with b by ring. apply key_r; assumption. }
    split.
    - eapply isd_eq; [apply (gen_call (fun x => s * exp ((x - (r - b) - x) * t)) (fun x => k * exp (- x * t)) (fun x => d1 s k t (x - (r - b)) v) (fun x => d2 s k t (x - (r - b)) v) r 0 (- k * t * exp (- r * t)) (sqrt t / v) (sqrt t / v));
        [auto_derive; [exact I|ring]|auto_derive; [exact I|ring]|exact D1|exact D2|exact K']|]. cbv beta.
      unfold call_rho. replace (r - (r - b)) with b by ring. ring.
    - apply (isd_ext _ _ r _ (fun y => eq_sym (put_form s k t y (y - (r - b)) v))).
      eapply isd_eq; [apply (gen_put (fun x => s * exp ((x - (r - b) - x) * t)) (fun x => k * exp (- x * t)) (fun x => d1 s k t (x - (r - b)) v) (fun x => d2 s k t (x - (r - b)) v) r 0 (- k * t * exp (- r * t)) (sqrt t / v) (sqrt t / v));
        [auto_derive; [exact I|ring]|auto_derive; [exact I|ring]|exact D1|exact D2|exact K']|]. cbv beta.
      unfold put_rho. replace (r - (r - b)) with b by ring. ring.
  Qed.
  (** carry sensitivity at a fixed rate *)
  Lemma carry_ok : is_derive (fun x => call_price s k t r x v) b (t * s * exp ((b - r) * t) * ncdf (d1 s k t b v)) /\
                   is_derive (fun x => put_price s k t r x v) b (- t * s * exp ((b - r) * t) * ncdf (- d1 s k t b v)).
  Proof.
    destruct P as (S & K & T & V). split.
    - eapply isd_eq; [apply (gen_call (fun x => s * exp ((x - r) * t)) (fun x => k * exp (- r * t)) (fun x => d1 s k t x v) (fun x => d2 s k t x v) b (s * t * exp ((b - r) * t)) 0);
        [auto_derive; [exact I|unfold Rminus; ring]|apply d_const|apply d1_db; assumption|apply d2_db; assumption|apply key_r; assumption]|]. cbv beta. ring.
    - apply (isd_ext _ _ b _ (fun y => eq_sym (put_form s k t r y v))).
      eapply isd_eq; [apply (gen_put (fun x => s * exp ((x - r) * t)) (fun x => k * exp (- r * t)) (fun x => d1 s k t x v) (fun x => d2 s k t x v) b (s * t * exp ((b - r) * t)) 0);
        [auto_derive; [exact I|unfold Rminus; ring]|apply d_const|apply d1_db; assumption|apply d2_db; assumption|apply key_r; assumption]|]. cbv beta. ring.
  Qed.

  (** second order *)
  Lemma gamma_ok : is_derive (fun x => call_delta x k t r b v) s (call_gamma s k t r b v) /\
                   is_derive (fun x => put_delta x k t r b v) s (put_gamma s k t r b v).
  Proof.
    destruct P as (S & K & T & V). pos_sq T. unfold call_delta, put_delta, put_gamma, call_gamma. split.
    - eapply isd_eq; [apply d_mul; [apply d_const|apply d_ncdf, d1_ds; assumption]|]. cbv beta. field. lra.
    - eapply isd_eq; [apply d_mul; [apply d_const|apply d_sub; [apply d_ncdf, d1_ds; assumption|apply d_const]]|]. cbv beta. field. lra.
  Qed.
  Lemma vanna_ok : is_derive (fun x => call_delta s k t r b x) v (call_vanna s k t r b v) /\
                   is_derive (fun x => put_delta s k t r b x) v (put_vanna s k t r b v).
  Proof.
    destruct P as (S & K & T & V). pos_sq T. unfold call_delta, put_delta, put_vanna, call_vanna. split.
    - eapply isd_eq; [apply d_mul; [apply d_const|apply d_ncdf, d1_dv; assumption]|]. cbv beta. field. lra.
    - eapply isd_eq; [apply d_mul; [apply d_const|apply d_sub; [apply d_ncdf, d1_dv; assumption|apply d_const]]|]. cbv beta. field. lra.
  Qed.
  Lemma charm_ok : is_derive (fun x => call_delta s k x r b v) t (call_charm s k t r b v) /\
                   is_derive (fun x => put_delta s k x r b v) t (put_charm s k t r b v).
  Proof.
    destruct P as (S & K & T & V). pos_sq T. unfold call_delta, put_delta, put_charm, call_charm.
    assert (E : is_derive (fun x => exp ((b - r) * x)) t ((b - r) * exp ((b - r) * t))) by (auto_derive; [exact I|ring]). split.
    - eapply isd_eq; [apply d_mul; [exact E|apply d_ncdf, d1_dt; assumption]|]. cbv beta. ring.
    - eapply isd_eq; [apply d_mul; [exact E|apply d_sub; [apply d_ncdf, d1_dt; assumption|apply d_const]]|]. cbv beta. rewrite ncdf_sym. ring.
  Qed.
  Lemma vomma_ok : is_derive (fun x => call_vega s k t r b x) v (call_vomma s k t r b v).
  Proof.
    destruct P as (S & K & T & V). pos_sq T. unfold call_vomma, call_vega.
    eapply isd_eq; [apply d_mul; [apply d_mul; [apply d_const|apply d_npdf, d1_dv; assumption]|apply d_const]|]. cbv beta. field. lra.
  Qed.
  Lemma vega_ds_ok : is_derive (fun x => call_vega x k t r b v) s (call_vanna s k t r b v).
  Proof.
    destruct P as (S & K & T & V). pos_sq T. unfold call_vanna, call_vega.
    eapply isd_eq; [apply d_mul; [apply d_mul; [apply (d_mul (fun x => x) (fun _ => exp ((b - r) * t))); [apply d_id|apply d_const]|apply d_npdf, d1_ds; assumption]|apply d_const]|].
    cbv beta. unfold d2. field. lra.
  Qed.
  Lemma vega_dt_ok : is_derive (fun x => call_vega s k x r b v) t
     (- (call_vega s k t r b v * (r - b + b * d1 s k t b v / (v * sqrt t) - (d1 s k t b v * d2 s k t b v + 1) / (2 * t)))).
  Proof.
    destruct P as (S & K & T & V). pos_sq T. unfold call_vega.
    assert (E : is_derive (fun x => s * exp ((b - r) * x)) t (s * (b - r) * exp ((b - r) * t))) by (auto_derive; [exact I|ring]).
    assert (Q : is_derive sqrt t (/ (2 * sqrt t))) by (auto_derive; [exact T|field; lra]).
    eapply isd_eq; [apply d_mul; [apply d_mul; [exact E|apply d_npdf, d1_dt; assumption]|exact Q]|]. cbv beta.
    set (x := d1 s k t b v) in *. set (y := d2 s k t b v) in *. clearbody x y. set (w := sqrt t) in *. replace t with (w * w) by assumption. field. lra.
  Qed.

  (** third order *)
  Lemma inv_d (g : R -> R) x a c : is_derive g x a -> g x <> 0 -> is_derive (fun y => c / g y) x (- c * a / (g x) ^ 2).
  Proof.
    intros G N. eapply isd_eq; [apply (d_mul (fun _ => c) (fun y => / g y)); [apply d_const|apply (is_derive_inv g x a G N)]|]. cbv beta. field. exact N.
  Qed.
  Lemma gamma_split x t' v' : call_gamma x k t' r b v' = exp ((b - r) * t') * npdf (d1 x k t' b v') * (1 / (x * v' * sqrt t')).
  Proof. unfold call_gamma, Rdiv. ring. Qed.
  Lemma speed_ok : is_derive (fun x => call_gamma x k t r b v) s (call_speed s k t r b v).
  Proof.
    destruct P as (S & K & T & V). pos_sq T. apply (isd_ext _ _ s _ (fun y => eq_sym (gamma_split y t v))).
    assert (E : is_derive (fun x => x * v * sqrt t) s (v * sqrt t)) by (auto_derive; [exact I|ring]).
    eapply isd_eq; [apply d_mul; [apply d_mul; [apply d_const|apply d_npdf, d1_ds; assumption]|apply inv_d; [exact E|pose proof (vs_pos t v T V); apply Rgt_not_eq; rewrite Rmult_assoc; apply Rmult_lt_0_compat; assumption]]|]. cbv beta.
    unfold call_speed, call_gamma. field. lra.
  Qed.
  Lemma zomma_ok : is_derive (fun x => call_gamma s k t r b x) v (call_zomma s k t r b v).
  Proof.
    destruct P as (S & K & T & V). pos_sq T. apply (isd_ext _ _ v _ (fun y => eq_sym (gamma_split s t y))).
    assert (E : is_derive (fun x => s * x * sqrt t) v (s * sqrt t)) by (auto_derive; [exact I|ring]).
    eapply isd_eq; [apply d_mul; [apply d_mul; [apply d_const|apply d_npdf, d1_dv; assumption]|apply inv_d; [exact E|pose proof (vs_pos t v T V); apply Rgt_not_eq; rewrite Rmult_assoc; apply Rmult_lt_0_compat; assumption]]|]. cbv beta.
    unfold call_zomma, call_gamma. field. lra.
  Qed.
  Lemma color_ok : is_derive (fun x => call_gamma s k x r b v) t (- call_color s k t r b v).
  Proof.
    destruct P as (S & K & T & V). pos_sq T. apply (isd_ext _ _ t _ (fun y => eq_sym (gamma_split s y v))).
    assert (E : is_derive (fun x => s * v * sqrt x) t (s * v / (2 * sqrt t))) by (auto_derive; [exact T|field; lra]).
    assert (E2 : is_derive (fun x => exp ((b - r) * x)) t ((b - r) * exp ((b - r) * t))) by (auto_derive; [exact I|ring]).
    eapply isd_eq; [apply d_mul; [apply d_mul; [exact E2|apply d_npdf, d1_dt; assumption]|apply inv_d; [exact E|pose proof (vs_pos t v T V); apply Rgt_not_eq; rewrite Rmult_assoc; apply Rmult_lt_0_compat; assumption]]|].
    cbv beta. unfold call_color, call_gamma. set (x := d1 s k t b v) in *. set (y := d2 s k t b v) in *. clearbody x y. set (w := sqrt t) in *. replace t with (w * w) by assumption. field. lra.
  Qed.
  Lemma strike_gamma_ok : is_derive (fun x => - exp (- r * t) * ncdf (d2 s x t b v)) k (npdf (d2 s k t b v) * exp (- r * t) / (k * v * sqrt t)) /\
                          is_derive (fun x => exp (- r * t) * ncdf (- d2 s x t b v)) k (npdf (d2 s k t b v) * exp (- r * t) / (k * v * sqrt t)).
  Proof.
    destruct P as (S & K & T & V). pos_sq T. split.
    - eapply isd_eq; [apply d_mul; [apply d_const|apply d_ncdf, d2_dk; assumption]|]. cbv beta. field. lra.
    - eapply isd_eq; [apply d_mul; [apply d_const|apply d_ncdf, d_opp, d2_dk; assumption]|]. cbv beta. rewrite npdf_even. field. lra.
  Qed.
  (** the volatility derivative of vomma *)
  Lemma ultima_true : d1 s k t b v <> 0 -> d2 s k t b v <> 0 ->
    is_derive (fun x => call_vomma s k t r b x) v
      (call_vomma s k t r b v / v * (d1 s k t b v * d2 s k t b v - d1 s k t b v / d2 s k t b v - d2 s k t b v / d1 s k t b v - 1)).
  Proof.
    intros N1 N2. destruct P as (S & K & T & V). pos_sq T. unfold call_vomma at 1.
    eapply isd_eq; [apply (d_mul (fun x => call_vega s k t r b x * d1 s k t b x * d2 s k t b x) (fun x => / x));
      [apply d_mul; [apply d_mul; [apply vomma_ok|apply d1_dv; assumption]|apply d2_dv; assumption]|apply (is_derive_inv (fun x => x)); [apply d_id|lra]]|]. cbv beta.
    unfold call_vomma. set (vg := call_vega s k t r b v). clearbody vg.
    assert (Q : sqrt t = (d1 s k t b v - d2 s k t b v) / v) by (unfold d2; field; lra). rewrite Q.
    set (x := d1 s k t b v) in *. set (y := d2 s k t b v) in *. clearbody x y. field. repeat split; lra || assumption.
  Qed.
End Greeks.

Theorem first_order_greeks : forall s k t r b v, adm s k t v ->
  (* spot *)
  is_derive (fun x => call_price x k t r b v) s (call_delta s k t r b v) /\ is_derive (fun x => put_price x k t r b v) s (put_delta s k t r b v) /\
  (* volatility *)
  is_derive (fun x => call_price s k t r b x) v (call_vega s k t r b v) /\ is_derive (fun x => put_price s k t r b x) v (put_vega s k t r b v) /\
  (* calendar time: minus the time to expiry *)
  is_derive (fun x => call_price s k x r b v) t (- call_theta s k t r b v) /\ is_derive (fun x => put_price s k x r b v) t (- put_theta s k t r b v).
Proof.
  intros s k t r b v P. split; [apply delta_ok, P|]. split; [apply delta_ok, P|]. split; [apply vega_ok, P|]. split; [apply vega_ok, P|]. split; apply theta_ok, P.
Qed.
Print Assumptions first_order_greeks.

(** rho is the rate derivative in the models whose carry is the rate minus a
    constant; for options on futures it is not *)
Theorem rho_greeks : forall s k t r q v, adm s k t v -> forall tf,
  is_derive (fun x => g_price (BlackScholes73 s x v) k t tf) r (g_rho (BlackScholes73 s r v) k t tf) /\
  is_derive (fun x => g_price (Merton73 s x q v) k t tf) r (g_rho (Merton73 s r q v) k t tf) /\
  is_derive (fun x => g_price (GarmanKohlhagen83 s x q v) k t tf) r (g_rho (GarmanKohlhagen83 s r q v) k t tf) /\
  (* Black (1976): the rate derivative is minus the price times the time *)
  is_derive (fun x => g_price (Black76 s x v) k t tf) r (- t * g_price (Black76 s r v) k t tf).
Proof.
  intros s k t r q v P tf.
  assert (Q : forall b, is_derive (fun x => dispatch call_price put_price (Merton73 s x (r - b) v) k t tf) r (dispatch call_rho put_rho (Merton73 s r (r - b) v) k t tf)).
  { intros b. unfold dispatch. cbn [g_s g_r g_b g_v]. replace (r - (r - b)) with b by ring. destruct tf; apply rho_ok, P. }
  split; [|split; [|split]].
  - pose proof (Q r) as H. replace (r - r) with 0 in H by ring. unfold g_price, g_rho, dispatch in *. cbn [g_s g_r g_b g_v] in *.
    rewrite Rminus_0_r in H. destruct tf; (eapply isd_ext; [|exact H]); intros y; cbv beta; rewrite Rminus_0_r; reflexivity.
  - pose proof (Q (r - q)) as H. replace (r - (r - q)) with q in H by ring. exact H.
  - pose proof (Q (r - q)) as H. replace (r - (r - q)) with q in H by ring. exact H.
  - unfold g_price, dispatch. cbn [g_s g_r g_b g_v]. 
    assert (E : is_derive (fun x => exp (- x * t)) r (- t * exp (- r * t))) by (auto_derive; [exact I|ring]).
    destruct tf.
    + apply (isd_ext (fun x => exp (- x * t) * (s * ncdf (d1 s k t 0 v) - k * ncdf (d2 s k t 0 v)))).
      * intros y. unfold call_price. replace ((0 - y) * t) with (- y * t) by ring. ring.
      * eapply isd_eq; [apply d_mul; [exact E|apply d_const]|]. unfold call_price. replace ((0 - r) * t) with (- r * t) by ring. ring.
    + apply (isd_ext (fun x => exp (- x * t) * (- s * ncdf (- d1 s k t 0 v) + k * ncdf (- d2 s k t 0 v)))).
      * intros y. unfold put_price. replace ((0 - y) * t) with (- y * t) by ring. ring.
      * eapply isd_eq; [apply d_mul; [exact E|apply d_const]|]. unfold put_price. replace ((0 - r) * t) with (- r * t) by ring. ring.
Qed.
Print Assumptions rho_greeks.

Theorem second_order_greeks : forall s k t r b v, adm s k t v ->
  is_derive (fun x => call_delta x k t r b v) s (call_gamma s k t r b v) /\ is_derive (fun x => put_delta x k t r b v) s (put_gamma s k t r b v) /\
  is_derive (fun x => call_delta s k t r b x) v (call_vanna s k t r b v) /\ is_derive (fun x => put_delta s k t r b x) v (put_vanna s k t r b v) /\
  is_derive (fun x => call_vega x k t r b v) s (call_vanna s k t r b v) /\
  is_derive (fun x => call_vega s k t r b x) v (call_vomma s k t r b v) /\ is_derive (fun x => put_vega s k t r b x) v (put_vomma s k t r b v) /\
  (* charm is the derivative in time to expiry, theta and color minus it *)
  is_derive (fun x => call_delta s k x r b v) t (call_charm s k t r b v) /\ is_derive (fun x => put_delta s k x r b v) t (put_charm s k t r b v).
Proof.
  intros s k t r b v P. split; [apply gamma_ok, P|]. split; [apply gamma_ok, P|]. split; [apply vanna_ok, P|]. split; [apply vanna_ok, P|].
  split; [apply vega_ds_ok, P|]. split; [apply vomma_ok, P|]. split; [apply vomma_ok, P|]. split; apply charm_ok, P.
Qed.
Print Assumptions second_order_greeks.

Theorem third_order_greeks : forall s k t r b v, adm s k t v ->
  is_derive (fun x => call_gamma x k t r b v) s (call_speed s k t r b v) /\ is_derive (fun x => put_gamma x k t r b v) s (put_speed s k t r b v) /\
  is_derive (fun x => call_gamma s k t r b x) v (call_zomma s k t r b v) /\ is_derive (fun x => put_gamma s k t r b x) v (put_zomma s k t r b v) /\
  is_derive (fun x => call_gamma s k x r b v) t (- call_color s k t r b v) /\ is_derive (fun x => put_gamma s k x r b v) t (- put_color s k t r b v).
Proof.
  intros s k t r b v P. split; [apply speed_ok, P|]. split; [apply speed_ok, P|]. split; [apply zomma_ok, P|]. split; [apply zomma_ok, P|]. split; apply color_ok, P.
Qed.
Print Assumptions third_order_greeks.

(** the Greeks of the date-based pricer that the other module lacks *)
Theorem bsm_opt_greeks : forall b s k v r t tf, adm s k t v ->
  let o := BsmOpt b s k v r t tf in
  is_derive (fun x => o_price (BsmOpt b s x v r t tf)) k (o_strike_delta o) /\
  is_derive (fun x => o_strike_delta (BsmOpt b s x v r t tf)) k (o_strike_gamma o) /\
  is_derive (fun x => o_vega (BsmOpt b s k v r x tf)) t (- o_vega_bleed o) /\
  (* phi: dividend yield, b = r - q *)
  is_derive (fun q => o_price (BsmOpt (r - q) s k v r t tf)) (r - b) (o_phi o) /\
  is_derive (fun x => o_price (BsmOpt (x - (r - b)) s k v x t tf)) r (o_rho o) /\
  o_zeta o = exp (r * t) * Rabs (o_strike_delta o) /\ 0 < o_zeta o < 1.
Proof.
  intros b s k v r t tf P o. pose proof P as (S & K & T & V).
  assert (E1 : forall b' s' k' v' r' t', 0 < t' -> 0 < v' -> o_d1 (BsmOpt b' s' k' v' r' t' tf) = d1 s' k' t' b' v').
  { intros. apply (bsm_opt_agrees (BsmOpt b' s' k' v' r' t' tf)); cbn; assumption. }
  assert (E2 : forall b' s' k' v' r' t', 0 < t' -> 0 < v' -> o_d2 (BsmOpt b' s' k' v' r' t' tf) = d2 s' k' t' b' v').
  { intros. apply (bsm_opt_agrees (BsmOpt b' s' k' v' r' t' tf)); cbn; assumption. }
  assert (EP : forall b' s' k' v' r' t', 0 < t' -> 0 < v' -> o_price (BsmOpt b' s' k' v' r' t' tf) = match tf with Call => call_price | Put => put_price end s' k' t' r' b' v').
  { intros. apply (bsm_opt_agrees (BsmOpt b' s' k' v' r' t' tf)); cbn; assumption. }
  assert (SD : forall k', o_strike_delta (BsmOpt b s k' v r t tf) = match tf with Call => - exp (- r * t) * ncdf (d2 s k' t b v) | Put => exp (- r * t) * ncdf (- d2 s k' t b v) end).
  { intros k'. unfold o_strike_delta. cbn [o_tf o_r o_t]. rewrite E2 by assumption. reflexivity. }
  split; [|split; [|split; [|split; [|split]]]].
  - apply (isd_ext (fun x => match tf with Call => call_price | Put => put_price end s x t r b v)); [intros; symmetry; apply EP; assumption|].
    unfold o. rewrite SD. destruct tf; apply strike_delta_ok, P.
  - apply (isd_ext (fun x => match tf with Call => - exp (- r * t) * ncdf (d2 s x t b v) | Put => exp (- r * t) * ncdf (- d2 s x t b v) end)); [intros; symmetry; apply SD|].
    unfold o, o_strike_gamma. rewrite E2 by assumption. cbn [o_r o_t o_k o_v]. destruct tf; apply strike_gamma_ok, P.
  - apply (isd_ext_pos (fun x => call_vega s k x r b v)); [exact T|intros; unfold o_vega, call_vega; rewrite E1 by assumption; reflexivity|].
    unfold o, o_vega_bleed, o_vega. rewrite E1, E2 by assumption. cbn [o_r o_t o_b o_v o_s]. apply vega_dt_ok, P.
  - apply (isd_ext (fun q => match tf with Call => call_price | Put => put_price end s k t r (r - q) v)); [intros; symmetry; apply EP; assumption|].
    unfold o, o_phi. cbn [o_tf]. rewrite E1 by assumption. cbn [o_r o_t o_b o_v o_s].
    assert (L : is_derive (fun q => r - q) (r - b) (-1)) by (auto_derive; [exact I|ring]).
    destruct tf.
    + eapply isd_eq; [apply (is_derive_comp (fun x => call_price s k t r x v) (fun q => r - q) (r - b) (t * s * exp ((b - r) * t) * ncdf (d1 s k t b v)) (-1)); [replace (r - (r - b)) with b by ring; apply carry_ok, P|exact L]|]. cbv beta.
      unfold scal; simpl; unfold mult; simpl. ring.
    + eapply isd_eq; [apply (is_derive_comp (fun x => put_price s k t r x v) (fun q => r - q) (r - b) (- t * s * exp ((b - r) * t) * ncdf (- d1 s k t b v)) (-1)); [replace (r - (r - b)) with b by ring; apply carry_ok, P|exact L]|]. cbv beta.
      unfold scal; simpl; unfold mult; simpl. ring.
  - apply (isd_ext (fun x => match tf with Call => call_price | Put => put_price end s k t x (x - (r - b)) v)); [intros; symmetry; apply EP; assumption|].
    assert (E : o_rho o = match tf with Call => call_rho | Put => put_rho end s k t r b v) by (apply (bsm_opt_agrees o); assumption).
    rewrite E. destruct tf; apply rho_ok, P.
  - unfold o. rewrite SD. unfold o_zeta. cbn [o_tf]. rewrite E2 by assumption. pose proof (exp_pos (- r * t)).
    assert (X : exp (r * t) * exp (- r * t) = 1) by (rewrite <- exp_plus; replace (r * t + - r * t) with 0 by ring; apply exp_0).
    destruct tf.
    + pose proof (ncdf_bound (d2 s k t b v)). split; [|lra]. rewrite Rabs_left by nra. replace (exp (r * t) * - (- exp (- r * t) * ncdf (d2 s k t b v))) with (exp (r * t) * exp (- r * t) * ncdf (d2 s k t b v)) by ring. rewrite X. ring.
    + pose proof (ncdf_bound (- d2 s k t b v)). split; [|lra]. rewrite Rabs_pos_eq by nra. rewrite <- Rmult_assoc, X. ring.
Qed.
Print Assumptions bsm_opt_greeks.

(** the Black-Scholes equation holds between the code's own Greeks *)
Theorem black_scholes_equation : forall s k t r b v, adm s k t v ->
  call_theta s k t r b v + / 2 * v ^ 2 * s ^ 2 * call_gamma s k t r b v + b * s * call_delta s k t r b v - r * call_price s k t r b v = 0 /\
  put_theta s k t r b v + / 2 * v ^ 2 * s ^ 2 * put_gamma s k t r b v + b * s * put_delta s k t r b v - r * put_price s k t r b v = 0.
Proof.
  intros s k t r b v (S & K & T & V). pos_sq T. unfold put_gamma, put_theta, put_delta, put_price, call_theta, call_gamma, call_delta, call_price.
  rewrite !ncdf_sym. split; field; lra.
Qed.
Print Assumptions black_scholes_equation.

(** lambda is the elasticity: d ln V / d ln S *)
Lemma lambda_elasticity : forall s k t r b v, adm s k t v ->
  is_derive (fun y => ln (call_price (exp y) k t r b v)) (ln s) (call_lambda s k t r b v) /\
  is_derive (fun y => ln (put_price (exp y) k t r b v)) (ln s) (put_lambda s k t r b v) \/ 
  call_price s k t r b v <= 0 \/ put_price s k t r b v <= 0.
Proof.
  intros s k t r b v P. pose proof P as (S & _).
  destruct (Rle_lt_dec (call_price s k t r b v) 0) as [|C]; [tauto|]. destruct (Rle_lt_dec (put_price s k t r b v) 0) as [|Q]; [tauto|]. left.
  assert (G : forall f d, is_derive f s d -> 0 < f s -> is_derive (fun y => ln (f (exp y))) (ln s) (d * s / f s)).
  { intros f d D F. assert (X : is_derive (fun y => f (exp y)) (ln s) (d * s)).
    { eapply isd_eq; [apply (is_derive_comp f exp (ln s) d (exp (ln s))); [rewrite exp_ln by exact S; exact D|apply is_derive_exp]|]. cbv beta.
      unfold scal; simpl; unfold mult; simpl. rewrite exp_ln by exact S. ring. }
    eapply isd_eq; [apply (is_derive_comp ln (fun y => f (exp y)) (ln s) (/ f s) (d * s)); [rewrite exp_ln by exact S; apply is_derive_ln; exact F|exact X]|]. cbv beta.
    unfold scal; simpl; unfold mult; simpl. unfold Rdiv. ring. }
  split; [apply (G (fun x => call_price x k t r b v))|apply (G (fun x => put_price x k t r b v))]; try assumption; apply delta_ok, P.
Qed.

(** ** C35 *)

Theorem price_bounds : forall s k t r b v, adm s k t v ->
  let F := s * exp ((b - r) * t) in let Kd := k * exp (- r * t) in
  0 < call_price s k t r b v /\ F - Kd < call_price s k t r b v < F /\
  0 < put_price s k t r b v /\ Kd - F < put_price s k t r b v < Kd /\
  0 < call_delta s k t r b v < exp ((b - r) * t) /\ - exp ((b - r) * t) < put_delta s k t r b v < 0 /\
  0 < call_gamma s k t r b v /\ 0 < call_vega s k t r b v.
Proof.
  intros s k t r b v (S & K & T & V) F Kd. pos_sq T.
  pose proof (exp_pos ((b - r) * t)) as E1. pose proof (exp_pos (- r * t)) as E2.
  assert (F0 : 0 < F) by (apply Rmult_lt_0_compat; lra). assert (K0 : 0 < Kd) by (apply Rmult_lt_0_compat; lra).
  pose proof (key_r s k t b v S K T V r) as KE. fold F Kd in KE.
  set (x := d1 s k t b v) in *. set (y := d2 s k t b v) in *.
  assert (L : y < x) by (unfold y, d2; fold x; pose proof (vs_pos t v T V); lra).
  pose proof (npdf_pos x) as px. pose proof (npdf_pos y) as py.
  pose proof (mills_increasing y x L) as M1. pose proof (mills_increasing (- x) (- y) ltac:(lra)) as M2. rewrite !npdf_even in M2.
  pose proof (ncdf_bound x) as Bx. pose proof (ncdf_bound y) as By. pose proof (ncdf_bound (- x)) as Bx'. pose proof (ncdf_bound (- y)) as By'.
  assert (C : 0 < F * ncdf x - Kd * ncdf y).
  { apply Rmult_lt_reg_r with (npdf x); [exact px|]. rewrite Rmult_0_l.
    replace ((F * ncdf x - Kd * ncdf y) * npdf x) with (F * npdf x * ncdf x - Kd * (ncdf y * npdf x)) by ring.
    rewrite KE. replace (Kd * npdf y * ncdf x - Kd * (ncdf y * npdf x)) with (Kd * (ncdf x * npdf y - ncdf y * npdf x)) by ring.
    apply Rmult_lt_0_compat; lra. }
  assert (Q : 0 < Kd * ncdf (- y) - F * ncdf (- x)).
  { apply Rmult_lt_reg_r with (npdf x); [exact px|]. rewrite Rmult_0_l.
    replace ((Kd * ncdf (- y) - F * ncdf (- x)) * npdf x) with (Kd * (ncdf (- y) * npdf x) - F * npdf x * ncdf (- x)) by ring.
    rewrite KE. replace (Kd * (ncdf (- y) * npdf x) - Kd * npdf y * ncdf (- x)) with (Kd * (ncdf (- y) * npdf x - ncdf (- x) * npdf y)) by ring.
    apply Rmult_lt_0_compat; lra. }
  assert (EC : call_price s k t r b v = F * ncdf x - Kd * ncdf y) by reflexivity.
  assert (EP : put_price s k t r b v = Kd * ncdf (- y) - F * ncdf (- x)) by (unfold put_price; fold x y; unfold F, Kd; ring).
  rewrite EC, EP. pose proof (ncdf_sym x). pose proof (ncdf_sym y).
  assert (0 < F * ncdf (- x)) by (apply Rmult_lt_0_compat; lra). assert (0 < Kd * ncdf y) by (apply Rmult_lt_0_compat; lra).
  assert (F * ncdf x + F * ncdf (- x) = F) by (rewrite ncdf_sym; ring). assert (Kd * ncdf y + Kd * ncdf (- y) = Kd) by (rewrite (ncdf_sym y); ring).
  unfold call_delta, put_delta, call_gamma, call_vega. fold x F.
  split; [exact C|]. split; [lra|]. split; [exact Q|]. split; [lra|]. split; [nra|]. split; [nra|].
  split; [apply Rdiv_lt_0_compat; [apply Rmult_lt_0_compat; lra|rewrite Rmult_assoc; apply Rmult_lt_0_compat; [lra|apply vs_pos; assumption]]|].
  apply Rmult_lt_0_compat; [apply Rmult_lt_0_compat; lra|lra].
Qed.
Print Assumptions price_bounds.

(** elasticity, now that both prices are known to be positive *)
(** the same through the public interface, for each model variant: the inputs a
    user varies are the spot (or futures) level, the volatility and the expiry *)
Definition with_spot (m : gbsm) (x : R) : gbsm := match m with
  | BlackScholes73 _ r v => BlackScholes73 x r v | Merton73 _ r q v => Merton73 x r q v | Black76 _ r v => Black76 x r v
  | Asay82 _ v => Asay82 x v | GarmanKohlhagen83 _ r f v => GarmanKohlhagen83 x r f v end.
Definition with_vol (m : gbsm) (x : R) : gbsm := match m with
  | BlackScholes73 s r _ => BlackScholes73 s r x | Merton73 s r q _ => Merton73 s r q x | Black76 s r _ => Black76 s r x
  | Asay82 s _ => Asay82 s x | GarmanKohlhagen83 s r f _ => GarmanKohlhagen83 s r f x end.
Theorem gbsm_greeks : forall m s v k t tf, adm s k t v ->
  let at_ := with_vol (with_spot m s) v in
  is_derive (fun x => g_price (with_spot at_ x) k t tf) s (g_delta at_ k t tf) /\
  is_derive (fun x => g_price (with_vol at_ x) k t tf) v (g_vega at_ k t tf) /\
  is_derive (fun x => g_price at_ k x tf) t (- g_theta at_ k t tf) /\
  is_derive (fun x => g_delta (with_spot at_ x) k t tf) s (g_gamma at_ k t tf) /\
  is_derive (fun x => g_delta (with_vol at_ x) k t tf) v (g_vanna at_ k t tf) /\
  is_derive (fun x => g_delta at_ k x tf) t (g_charm at_ k t tf) /\
  is_derive (fun x => g_vega (with_vol at_ x) k t tf) v (g_vomma at_ k t tf) /\
  is_derive (fun x => g_gamma (with_spot at_ x) k t tf) s (g_speed at_ k t tf) /\
  is_derive (fun x => g_gamma (with_vol at_ x) k t tf) v (g_zomma at_ k t tf) /\
  is_derive (fun x => g_gamma at_ k x tf) t (- g_color at_ k t tf) /\
  g_lambda at_ k t tf * g_price at_ k t tf = s * g_delta at_ k t tf.
Proof.
  intros m s v k t tf P at_.
  assert (L : forall r b, call_lambda s k t r b v * call_price s k t r b v = s * call_delta s k t r b v /\ put_lambda s k t r b v * put_price s k t r b v = s * put_delta s k t r b v).
  { intros r b. unfold call_lambda, put_lambda. destruct (price_bounds s k t r b v P) as (B1 & _ & B2 & _). split; field; lra. }
  assert (G : exists r b, (forall x, g_s (with_spot at_ x) = x /\ g_r (with_spot at_ x) = r /\ g_b (with_spot at_ x) = b /\ g_v (with_spot at_ x) = v) /\
     (forall x, g_s (with_vol at_ x) = s /\ g_r (with_vol at_ x) = r /\ g_b (with_vol at_ x) = b /\ g_v (with_vol at_ x) = x) /\
     g_s at_ = s /\ g_r at_ = r /\ g_b at_ = b /\ g_v at_ = v).
  { exists (g_r at_), (g_b at_). destruct m; repeat split. }
  destruct G as (r & b & G1 & G2 & E1 & E2 & E3 & E4).
  assert (Es : forall fc fp k t x, dispatch fc fp (with_spot at_ x) k t tf = match tf with Call => fc x k t r b v | Put => fp x k t r b v end).
  { intros. unfold dispatch. destruct (G1 x) as (-> & -> & -> & ->). reflexivity. }
  assert (Ev : forall fc fp k t x, dispatch fc fp (with_vol at_ x) k t tf = match tf with Call => fc s k t r b x | Put => fp s k t r b x end).
  { intros. unfold dispatch. destruct (G2 x) as (-> & -> & -> & ->). reflexivity. }
  assert (Ea : forall fc fp k t, dispatch fc fp at_ k t tf = match tf with Call => fc s k t r b v | Put => fp s k t r b v end).
  { intros. unfold dispatch. rewrite E1, E2, E3, E4. reflexivity. }
  clearbody at_. clear G1 G2 E1 E2 E3 E4.
  unfold g_price, g_delta, g_vega, g_theta, g_gamma, g_vanna, g_charm, g_vomma, g_speed, g_zomma, g_color, g_lambda. rewrite !Ea.
  split; [eapply isd_ext; [intros y; symmetry; apply Es|]; destruct tf; apply delta_ok, P|].
  split; [eapply isd_ext; [intros y; symmetry; apply Ev|]; destruct tf; apply vega_ok, P|].
  split; [eapply isd_ext; [intros y; symmetry; apply Ea|]; destruct tf; apply theta_ok, P|].
  split; [eapply isd_ext; [intros y; symmetry; apply Es|]; destruct tf; apply gamma_ok, P|].
  split; [eapply isd_ext; [intros y; symmetry; apply Ev|]; destruct tf; apply vanna_ok, P|].
  split; [eapply isd_ext; [intros y; symmetry; apply Ea|]; destruct tf; apply charm_ok, P|].
  split; [eapply isd_ext; [intros y; symmetry; apply Ev|]; destruct tf; apply vomma_ok, P|].
  split; [eapply isd_ext; [intros y; symmetry; apply Es|]; destruct tf; apply speed_ok, P|].
  split; [eapply isd_ext; [intros y; symmetry; apply Ev|]; destruct tf; apply zomma_ok, P|].
  split; [eapply isd_ext; [intros y; symmetry; apply Ea|]; destruct tf; apply color_ok, P|].
  destruct tf; apply L.
Qed.
Print Assumptions gbsm_greeks.
Example gbsm_greeks_case : adm 100 95 (/ 2) (/ 5) /\ with_vol (with_spot (Merton73 1 (/ 20) (/ 50) 1) 100) (/ 5) = Merton73 100 (/ 20) (/ 50) (/ 5).
Proof. unfold adm. split; [lra|reflexivity]. Qed.
Theorem lambda_is_elasticity : forall s k t r b v, adm s k t v ->
  is_derive (fun y => ln (call_price (exp y) k t r b v)) (ln s) (call_lambda s k t r b v) /\
  is_derive (fun y => ln (put_price (exp y) k t r b v)) (ln s) (put_lambda s k t r b v) /\
  1 < call_lambda s k t r b v /\ put_lambda s k t r b v < 0.
Proof.
  intros s k t r b v P. destruct (price_bounds s k t r b v P) as (C & _ & Q & _ & Dc & Dp & _).
  pose proof P as (S & K & T & V).
  destruct (lambda_elasticity s k t r b v P) as [[A B]|[|]]; [|lra|lra]. split; [exact A|]. split; [exact B|]. split.
  - unfold call_lambda. apply Rmult_lt_reg_r with (call_price s k t r b v); [exact C|]. unfold Rdiv. rewrite Rmult_assoc, Rinv_l by lra.
    unfold call_price, call_delta. pose proof (ncdf_bound (d2 s k t b v)). pose proof (exp_pos (- r * t)).
    assert (0 < k * exp (- r * t) * ncdf (d2 s k t b v)) by (apply Rmult_lt_0_compat; [apply Rmult_lt_0_compat|]; lra). lra.
  - unfold put_lambda. apply Rmult_lt_reg_r with (put_price s k t r b v); [exact Q|]. unfold Rdiv. rewrite Rmult_assoc, Rinv_l by lra. nra.
Qed.
Print Assumptions lambda_is_elasticity.

(** strict monotonicity, from the sign of the derivative on the whole half line *)
Lemma mono_pos (f df : R -> R) : (forall x, 0 < x -> is_derive f x (df x)) -> (forall x, 0 < x -> 0 < df x) -> forall x y, 0 < x -> x < y -> f x < f y.
Proof.
  intros D G x y X Y. apply (incr_function f 0 p_infty df); [intros z Z _; apply D; exact Z|intros z Z _; apply G; exact Z|exact X|exact Y|exact I].
Qed.
Theorem price_monotone : forall s s' k k' t r b v v', adm s k t v ->
  (s < s' -> call_price s k t r b v < call_price s' k t r b v /\ put_price s' k t r b v < put_price s k t r b v) /\
  (k < k' -> call_price s k' t r b v < call_price s k t r b v /\ put_price s k t r b v < put_price s k' t r b v) /\
  (v < v' -> call_price s k t r b v < call_price s k t r b v' /\ put_price s k t r b v < put_price s k t r b v').
Proof.
  intros s s' k k' t r b v v' (S & K & T & V).
  assert (A : forall x y w, 0 < x -> 0 < y -> 0 < w -> adm x y t w) by (unfold adm; auto). pose proof (exp_pos (- r * t)) as ER.
  split; [|split]; intros L; split.
  - apply (mono_pos (fun x => call_price x k t r b v) (fun x => call_delta x k t r b v)); auto; intros x X; [apply delta_ok|apply price_bounds]; auto.
  - cut (- put_price s k t r b v < - put_price s' k t r b v); [lra|].
    apply (mono_pos (fun x => - put_price x k t r b v) (fun x => - put_delta x k t r b v)); auto; intros x X; [apply d_opp, delta_ok; auto|].
    destruct (price_bounds x k t r b v (A _ _ _ X K V)) as (_ & _ & _ & _ & _ & D & _). lra.
  - cut (- call_price s k t r b v < - call_price s k' t r b v); [lra|].
    apply (mono_pos (fun x => - call_price s x t r b v) (fun x => - (- exp (- r * t) * ncdf (d2 s x t b v)))); auto; intros x X; [apply d_opp, strike_delta_ok; auto|].
    pose proof (ncdf_bound (d2 s x t b v)). nra.
  - apply (mono_pos (fun x => put_price s x t r b v) (fun x => exp (- r * t) * ncdf (- d2 s x t b v))); auto; intros x X; [apply strike_delta_ok; auto|].
    pose proof (ncdf_bound (- d2 s x t b v)). nra.
  - apply (mono_pos (fun x => call_price s k t r b x) (fun x => call_vega s k t r b x)); auto; intros x X; [apply vega_ok|apply price_bounds]; auto.
  - apply (mono_pos (fun x => put_price s k t r b x) (fun x => put_vega s k t r b x)); auto; intros x X; [apply vega_ok|unfold put_vega; apply price_bounds]; auto.
Qed.
Print Assumptions price_monotone.
Example price_monotone_case : adm 100 110 1 (/ 5) /\ 100 < 101 /\ 110 < 111 /\ / 5 < / 4.
Proof. unfold adm. lra. Qed.

(** an implied volatility is unique *)
Theorem implied_volatility_unique : forall s k t r b v v', adm s k t v -> 0 < v' ->
  (call_price s k t r b v = call_price s k t r b v' -> v = v') /\ (put_price s k t r b v = put_price s k t r b v' -> v = v').
Proof.
  intros s k t r b v v' P V'. pose proof P as (S & K & T & V). assert (P' : adm s k t v') by (unfold adm; auto).
  destruct (price_monotone s s k k t r b v v' P) as (_ & _ & A). destruct (price_monotone s s k k t r b v' v P') as (_ & _ & B).
  destruct (Rtotal_order v v') as [L|[E|L]]; [destruct (A L); split; intros; lra|auto|destruct (B L); split; intros; lra].
Qed.
Print Assumptions implied_volatility_unique.

(** convex in the spot and in the strike; homogeneous of degree one *)
Lemma convex_from_derivative (f df : R -> R) : (forall x, 0 < x -> is_derive f x (df x)) -> (forall x y, 0 < x -> x <= y -> df x <= df y) ->
  forall x y w, 0 < x -> 0 < y -> 0 <= w <= 1 -> f (w * x + (1 - w) * y) <= w * f x + (1 - w) * f y.
Proof.
  intros D M.
  (* tangent line at z *)
  assert (T : forall z x, 0 < z -> 0 < x -> f z + df z * (x - z) <= f x).
  { intros z x Z X. destruct (Rtotal_order x z) as [L|[->|L]]; [|lra|].
    - destruct (MVT_gen f x z df) as (c & Hc & E).
      { intros u U. apply D. rewrite Rmin_left in U by lra. lra. }
      { intros u U. rewrite Rmin_left in U by lra. apply continuity_pt_filterlim, (ex_derive_continuous f u). exists (df u). apply D. lra. }
      rewrite Rmin_left, Rmax_right in Hc by lra. pose proof (M c z ltac:(lra) ltac:(lra)). nra.
    - destruct (MVT_gen f z x df) as (c & Hc & E).
      { intros u U. apply D. rewrite Rmin_left in U by lra. lra. }
      { intros u U. rewrite Rmin_left in U by lra. apply continuity_pt_filterlim, (ex_derive_continuous f u). exists (df u). apply D. lra. }
      rewrite Rmin_left, Rmax_right in Hc by lra. pose proof (M z c ltac:(lra) ltac:(lra)). nra. }
  intros x y w X Y W. set (z := w * x + (1 - w) * y).
  assert (Z : 0 < z).
  { unfold z. destruct (Rle_lt_dec w (/ 2)); [assert (0 < (1 - w) * y) by (apply Rmult_lt_0_compat; lra)|assert (0 < w * x) by (apply Rmult_lt_0_compat; lra)]; nra. }
  pose proof (T z x Z X). pose proof (T z y Z Y). 
  assert (w * (f z + df z * (x - z)) <= w * f x) by (apply Rmult_le_compat_l; lra).
  assert ((1 - w) * (f z + df z * (y - z)) <= (1 - w) * f y) by (apply Rmult_le_compat_l; lra).
  assert (Ez : w * x + (1 - w) * y - z = 0) by (unfold z; ring). clearbody z.
  assert (w * (f z + df z * (x - z)) + (1 - w) * (f z + df z * (y - z)) = f z + df z * (w * x + (1 - w) * y - z)) as E by ring.
  rewrite Ez in E. lra.
Qed.
Theorem price_convex : forall s s' k k' t r b v w, adm s k t v -> 0 < s' -> 0 < k' -> 0 <= w <= 1 ->
  call_price (w * s + (1 - w) * s') k t r b v <= w * call_price s k t r b v + (1 - w) * call_price s' k t r b v /\
  put_price (w * s + (1 - w) * s') k t r b v <= w * put_price s k t r b v + (1 - w) * put_price s' k t r b v /\
  call_price s (w * k + (1 - w) * k') t r b v <= w * call_price s k t r b v + (1 - w) * call_price s k' t r b v /\
  put_price s (w * k + (1 - w) * k') t r b v <= w * put_price s k t r b v + (1 - w) * put_price s k' t r b v.
Proof.
  intros s s' k k' t r b v w (S & K & T & V) S' K' W.
  assert (A : forall x y w, 0 < x -> 0 < y -> 0 < w -> adm x y t w) by (unfold adm; auto). pose proof (exp_pos (- r * t)) as ER.
  assert (Le : forall (g dg : R -> R), (forall x, 0 < x -> is_derive g x (dg x)) -> (forall x, 0 < x -> 0 < dg x) -> forall x y, 0 < x -> x <= y -> g x <= g y).
  { intros g dg D G x y X [L| ->]; [left; apply (mono_pos g dg); auto|lra]. }
  split; [|split; [|split]].
  - apply (convex_from_derivative (fun x => call_price x k t r b v) (fun x => call_delta x k t r b v)); auto; [intros; apply delta_ok; auto|].
    apply (Le _ (fun x => call_gamma x k t r b v)); intros; [apply gamma_ok|apply price_bounds]; auto.
  - apply (convex_from_derivative (fun x => put_price x k t r b v) (fun x => put_delta x k t r b v)); auto; [intros; apply delta_ok; auto|].
    apply (Le _ (fun x => put_gamma x k t r b v)); intros; [apply gamma_ok|unfold put_gamma; apply price_bounds]; auto.
  - apply (convex_from_derivative (fun x => call_price s x t r b v) (fun x => - exp (- r * t) * ncdf (d2 s x t b v))); auto; [intros; apply strike_delta_ok; auto|].
    apply (Le _ (fun x => npdf (d2 s x t b v) * exp (- r * t) / (x * v * sqrt t))); intros x X; [apply strike_gamma_ok; auto|].
    pose proof (npdf_pos (d2 s x t b v)). apply Rdiv_lt_0_compat; [apply Rmult_lt_0_compat; lra|rewrite Rmult_assoc; apply Rmult_lt_0_compat; [exact X|apply vs_pos; assumption]].
  - apply (convex_from_derivative (fun x => put_price s x t r b v) (fun x => exp (- r * t) * ncdf (- d2 s x t b v))); auto; [intros; apply strike_delta_ok; auto|].
    apply (Le _ (fun x => npdf (d2 s x t b v) * exp (- r * t) / (x * v * sqrt t))); intros x X; [apply strike_gamma_ok; auto|].
    pose proof (npdf_pos (d2 s x t b v)). apply Rdiv_lt_0_compat; [apply Rmult_lt_0_compat; lra|rewrite Rmult_assoc; apply Rmult_lt_0_compat; [exact X|apply vs_pos; assumption]].
Qed.
Print Assumptions price_convex.
Theorem price_homogeneous : forall c s k t r b v, 0 < c -> adm s k t v ->
  call_price (c * s) (c * k) t r b v = c * call_price s k t r b v /\ put_price (c * s) (c * k) t r b v = c * put_price s k t r b v.
Proof.
  intros c s k t r b v C (S & K & T & V).
  assert (E : d1 (c * s) (c * k) t b v = d1 s k t b v) by (unfold d1; replace (c * s / (c * k)) with (s / k) by (field; lra); reflexivity).
  unfold call_price, put_price, d2. rewrite E. split; ring.
Qed.
Print Assumptions price_homogeneous.

(** ** C34: what is not the derivative *)

(** ultima: wherever the formula is defined it differs from the volatility
    derivative of vomma, by 2 d2^2 vega / v^2 *)
Theorem ultima_refuted : forall s k t r b v, adm s k t v -> d1 s k t b v <> 0 -> d2 s k t b v <> 0 ->
  exists u, is_derive (fun x => call_vomma s k t r b x) v u /\
    call_ultima s k t r b v - u = 2 * d2 s k t b v ^ 2 * call_vega s k t r b v / v ^ 2 /\ call_ultima s k t r b v <> u.
Proof.
  intros s k t r b v P N1 N2. eexists. split; [apply ultima_true; assumption|]. pose proof P as (S & K & T & V).
  destruct (price_bounds s k t r b v P) as (_ & _ & _ & _ & _ & _ & _ & G). unfold call_ultima, call_vomma. cbv zeta.
  set (g := call_vega s k t r b v) in *. set (x := d1 s k t b v) in *. set (y := d2 s k t b v) in *. clearbody g x y.
  assert (E : g * x * y / v / v * (x * y - x / y + y / x - 1) - g * x * y / v / v * (x * y - x / y - y / x - 1) = 2 * y ^ 2 * g / v ^ 2).
  { field. repeat split; lra || assumption. }
  split; [exact E|]. intros X. rewrite X in E. assert (0 < 2 * y ^ 2 * g / v ^ 2); [|lra].
  apply Rdiv_lt_0_compat; [|nra]. apply Rmult_lt_0_compat; [|exact G]. assert (0 < y ^ 2); [|lra]. destruct (Rlt_or_le 0 y); nra.
Qed.
Print Assumptions ultima_refuted.
Example ultima_case : adm (exp 1) 1 1 1 /\ d1 (exp 1) 1 1 0 1 <> 0 /\ d2 (exp 1) 1 1 0 1 <> 0.
Proof.
  unfold adm, d2, d1. rewrite Rdiv_1, ln_exp, sqrt_1. pose proof (exp_pos 1). lra.
Qed.

(** charm uses the opposite time convention to theta and color: it is the
    derivative in time to expiry, so the calendar-time derivative has the other sign *)
Theorem charm_convention_refuted : exists s k t r b v u, adm s k t v /\
  is_derive (fun now => call_delta s k (t - now) r b v) 0 u /\
  (exists w, is_derive (fun now => call_price s k (t - now) r b v) 0 w /\ call_theta s k t r b v = w) /\
  u <> 0 /\ call_charm s k t r b v = - u.
Proof.
  exists 1, 1, 1, 0, 0, 1. assert (P : adm 1 1 1 1) by (unfold adm; lra). exists (- call_charm 1 1 1 0 0 1).
  split; [exact P|].
  assert (L : is_derive (fun x => 1 - x) 0 (-1)) by (auto_derive; [exact I|ring]).
  split; [|split].
  - eapply isd_eq; [apply (is_derive_comp (fun x => call_delta 1 1 x 0 0 1) (fun now => 1 - now) 0 (call_charm 1 1 1 0 0 1) (-1)); [rewrite Rminus_0_r; apply charm_ok; exact P|exact L]|].
    unfold scal; simpl; unfold mult; simpl. ring.
  - eexists. split; [|reflexivity].
    eapply isd_eq; [apply (is_derive_comp (fun x => call_price 1 1 x 0 0 1) (fun now => 1 - now) 0 (- call_theta 1 1 1 0 0 1) (-1)); [rewrite Rminus_0_r; apply theta_ok; exact P|exact L]|].
    unfold scal; simpl; unfold mult; simpl. ring.
  - split; [|ring]. unfold call_charm, d2, d1. rewrite Rdiv_1, ln_1, sqrt_1. replace ((0 - 0) * 1) with 0 by ring. rewrite exp_0.
    replace ((0 + (0 + / 2 * 1 ^ 2) * 1) / (1 * 1)) with (/ 2) by field. pose proof (npdf_pos (/ 2)). lra.
Qed.
Print Assumptions charm_convention_refuted.

(** options on futures: a call's reported rho is positive, the rate derivative
    of its price is negative; with no rate at all (Asay) rho is still non-zero *)
Theorem rho_futures_refuted : forall f k t r v, adm f k t v ->
  (exists u, is_derive (fun x => g_price (Black76 f x v) k t Call) r u /\ u < 0 < g_rho (Black76 f r v) k t Call) /\
  0 < g_rho (Asay82 f v) k t Call.
Proof.
  intros f k t r v P. pose proof P as (S & K & T & V). 
  assert (G : forall r' b', 0 < call_rho f k t r' b' v).
  { intros. unfold call_rho. pose proof (ncdf_bound (d2 f k t b' v)). pose proof (exp_pos (- r' * t)). apply Rmult_lt_0_compat; [apply Rmult_lt_0_compat; [apply Rmult_lt_0_compat|]|]; lra. }
  split; [|apply G]. eexists. split; [apply (rho_greeks f k t r 0 v P Call)|]. split; [|apply G].
  destruct (price_bounds f k t r 0 v P) as (C & _). unfold g_price, dispatch. cbn [g_s g_r g_b g_v]. nra.
Qed.
Print Assumptions rho_futures_refuted.

(** ** C36: SABR at the money *)

(** the volatility at forward = strike is 0 for a non-zero correlation and
    0/0 for zero correlation, whatever the other parameters; the expected value
    is positive for small times *)
Theorem sabr_atm_refuted : forall f t alpha beta rho nu, 0 < f -> rho < 1 ->
  sabr_volatility f f t alpha beta rho nu = if Reqb rho 0 then None else Some 0.
Proof.
  intros f t alpha beta rho nu F R1.
  assert (Z : sabr_z f f beta = 0) by (unfold sabr_z; replace (f / f) with 1 by (field; lra); rewrite ln_1; ring).
  assert (Chi : sabr_chi f f beta rho = Some (ln (1 - rho) / (1 - rho))).
  { unfold sabr_chi. rewrite Z. cbv zeta. replace (1 - 2 * rho * 0 + 0 ^ 2) with 1 by ring. destruct (Rltb_spec 1 0); [lra|]. rewrite sqrt_1. unfold fln.
    replace (1 + 0 - rho) with (1 - rho) by ring. destruct (Rltb_spec 0 (1 - rho)); [|lra]. unfold fdiv. destruct (Reqb_spec (1 - rho) 0); [lra|reflexivity]. }
  unfold sabr_volatility, sabr_coefficient. rewrite Chi, Z.
  destruct (Reqb_spec rho 0) as [->|N].
  - replace (1 - 0) with 1 by ring. rewrite ln_1. replace (0 / 1) with 0 by field. unfold fdiv. destruct (Reqb_spec 0 0); [reflexivity|lra].
  - assert (L : ln (1 - rho) / (1 - rho) <> 0).
    { apply Rmult_integral_contrapositive_currified; [|apply Rinv_neq_0_compat; lra]. intros E.
      assert (X : exp (ln (1 - rho)) = exp 0) by (rewrite E; reflexivity). rewrite exp_ln, exp_0 in X by lra. lra. }
    unfold fdiv. destruct (Reqb_spec (ln (1 - rho) / (1 - rho)) 0); [contradiction|].
    assert (D : 0 < sabr_denominator f f beta).
    { unfold sabr_denominator. replace (f / f) with 1 by (field; lra). rewrite ln_1.
      replace (1 + (1 - beta) ^ 2 * 0 ^ 2 / 24 + (1 - beta) ^ 4 * 0 ^ 4 / 1920) with 1 by field. rewrite Rmult_1_r. unfold fk_power, Rpower. apply exp_pos. }
    destruct (Reqb_spec (sabr_denominator f f beta) 0); [lra|]. f_equal. unfold Rdiv. ring.
Qed.
Print Assumptions sabr_atm_refuted.
Example sabr_atm_case : 0 < 100 /\ - / 2 < 1 /\ 0 < sabr_numerator 100 100 1 (/ 5) 1 (- / 2) (2 / 5) / sabr_denominator 100 100 1.
Proof.
  split; [lra|]. split; [lra|]. unfold sabr_denominator, sabr_numerator, fk_power. replace ((1 - 1) / 2) with 0 by field. rewrite Rpower_O by lra.
  apply Rdiv_lt_0_compat; [lra|]. replace (1 - 1) with 0 by ring. replace (0 ^ 2) with 0 by ring. replace (0 ^ 4) with 0 by ring. lra.
Qed.

(** gamma percent: the change of the delta for a relative move of the spot, per percent *)
Theorem gamma_percent_ok : forall b s k v r t tf, adm s k t v ->
  is_derive (fun h => match tf with Call => call_delta | Put => put_delta end (s * (1 + h / 100)) k t r b v) 0 (o_gamma_percent (BsmOpt b s k v r t tf)).
Proof.
  intros b s k v r t tf P. pose proof P as (S & K & T & V).
  assert (L : is_derive (fun h => s * (1 + h / 100)) 0 (s / 100)) by (auto_derive; [exact I|lra]).
  assert (Z : s * (1 + 0 / 100) = s) by lra.
  assert (E : o_gamma_percent (BsmOpt b s k v r t tf) = call_gamma s k t r b v * (s / 100)).
  { unfold o_gamma_percent. pose proof (bsm_opt_agrees (BsmOpt b s k v r t tf)) as A. cbn [o_v o_t o_s o_k o_r o_b] in A. destruct (A V T) as (_ & _ & _ & G & _). rewrite G. cbn [o_s]. unfold Rdiv. ring. }
  destruct (second_order_greeks s k t r b v P) as (D1 & D2 & _).
  destruct tf.
  - eapply isd_eq; [apply (is_derive_comp (fun x => call_delta x k t r b v) (fun h => s * (1 + h / 100)) 0 (call_gamma s k t r b v) (s / 100)); [rewrite Z; exact D1|exact L]|]. rewrite E. unfold scal; simpl; unfold mult; simpl. ring.
  - eapply isd_eq; [apply (is_derive_comp (fun x => put_delta x k t r b v) (fun h => s * (1 + h / 100)) 0 (put_gamma s k t r b v) (s / 100)); [rewrite Z; exact D2|exact L]|]. rewrite E. unfold scal; simpl; unfold mult; simpl. unfold put_gamma. ring.
Qed.
Print Assumptions gamma_percent_ok.
Example gamma_percent_case : adm 100 95 (1 / 2) (1 / 5). Proof. unfold adm. repeat split; lra. Qed.
