(** C83: Heston's characteristic functions and prices solve Heston's equation. *)
From Coq Require Import Reals List Bool Lra Lia Psatz.
From Coquelicot Require Import Coquelicot.
From Verif Require Import Res InterpModel InterpProofs RList StatModel StatProps PayoffModel SpecialFns BsmModel BsmProofs BsmProps BachHestonProps HestonOde.
Import ListNotations.
Open Scope R_scope.

(** The partial derivatives of [F x v t]: of the first order in [t], and up to
    the second in [x] and [v]. *)
Definition partials (F : R -> R -> R -> R) (x v t : R) (ft fx fv fxx fxv fvv : R) : Prop :=
  is_derive (fun y => F x v y) t ft /\
  exists Fx Fv : R -> R -> R,
    (forall a b, is_derive (fun y => F y b t) a (Fx a b)) /\
    (forall a b, is_derive (fun y => F a y t) b (Fv a b)) /\
    Fx x v = fx /\ Fv x v = fv /\
    is_derive (fun y => Fx y v) x fxx /\ is_derive (fun y => Fx x y) v fxv /\ is_derive (fun y => Fv x y) v fvv.
Ltac s7 := split; [|split; [|split; [|split; [|split; [|split]]]]].
Lemma partials_eq : forall F x v t a1 a2 a3 a4 a5 a6 b1 b2 b3 b4 b5 b6, partials F x v t a1 a2 a3 a4 a5 a6 ->
  a1 = b1 -> a2 = b2 -> a3 = b3 -> a4 = b4 -> a5 = b5 -> a6 = b6 -> partials F x v t b1 b2 b3 b4 b5 b6.
Proof. intros; subst; assumption. Qed.
Lemma partials_ext : forall F G x v t a1 a2 a3 a4 a5 a6, (forall x v t, F x v t = G x v t) -> partials F x v t a1 a2 a3 a4 a5 a6 -> partials G x v t a1 a2 a3 a4 a5 a6.
Proof.
  intros F G x v t a1 a2 a3 a4 a5 a6 E (Dt & Fx & Fv & H1 & H2 & H3 & H4 & H5 & H6 & H7). split; [apply (isd_ext (fun y => F x v y)); auto|].
  exists Fx, Fv. s7; try assumption; intros; [apply (isd_ext (fun y => F y b t))|apply (isd_ext (fun y => F a y t))]; auto.
Qed.
Lemma partials_const : forall c x v t, partials (fun _ _ _ => c) x v t 0 0 0 0 0 0.
Proof. intros. split; [apply d_const|]. exists (fun _ _ => 0), (fun _ _ => 0). s7; intros; try reflexivity; apply d_const. Qed.
Lemma partials_add : forall F G x v t a1 a2 a3 a4 a5 a6 b1 b2 b3 b4 b5 b6, partials F x v t a1 a2 a3 a4 a5 a6 -> partials G x v t b1 b2 b3 b4 b5 b6 ->
  partials (fun x v t => F x v t + G x v t) x v t (a1 + b1) (a2 + b2) (a3 + b3) (a4 + b4) (a5 + b5) (a6 + b6).
Proof.
  intros F G x v t a1 a2 a3 a4 a5 a6 b1 b2 b3 b4 b5 b6 (Dt & Fx & Fv & H1 & H2 & H3 & H4 & H5 & H6 & H7) (Dt' & Gx & Gv & I1 & I2 & I3 & I4 & I5 & I6 & I7).
  split; [apply d_add; assumption|]. exists (fun x v => Fx x v + Gx x v), (fun x v => Fv x v + Gv x v).
  s7; intros; try (apply d_add; auto); subst; reflexivity.
Qed.
Lemma d_scal_l : forall c f t l, is_derive f t l -> is_derive (fun y => c * f y) t (c * l).
Proof. intros c f t l H. eapply isd_eq; [apply (d_mul (fun _ => c)); [apply d_const|exact H]|]. cbv beta. ring. Qed.
Lemma partials_scal : forall c F x v t a1 a2 a3 a4 a5 a6, partials F x v t a1 a2 a3 a4 a5 a6 ->
  partials (fun x v t => c * F x v t) x v t (c * a1) (c * a2) (c * a3) (c * a4) (c * a5) (c * a6).
Proof.
  intros c F x v t a1 a2 a3 a4 a5 a6 (Dt & Fx & Fv & H1 & H2 & H3 & H4 & H5 & H6 & H7).
  split; [apply d_scal_l; assumption|]. exists (fun x v => c * Fx x v), (fun x v => c * Fv x v).
  s7; intros; try (apply d_scal_l; auto); subst; reflexivity.
Qed.
(** multiplication by [exp (m x + n t)] *)
Lemma partials_exp : forall m n F x v t a1 a2 a3 a4 a5 a6, partials F x v t a1 a2 a3 a4 a5 a6 -> let e := exp (m * x + n * t) in
  partials (fun x v t => exp (m * x + n * t) * F x v t) x v t (e * (a1 + n * F x v t)) (e * (a2 + m * F x v t)) (e * a3) (e * (a4 + 2 * m * a2 + m * m * F x v t)) (e * (a5 + m * a3)) (e * a6).
Proof.
  intros m n F x v t a1 a2 a3 a4 a5 a6 (Dt & Fx & Fv & H1 & H2 & H3 & H4 & H5 & H6 & H7) e.
  assert (Ex : forall a, is_derive (fun y => exp (m * y + n * t)) a (m * exp (m * a + n * t))) by (intro; auto_derive; [exact I|ring]).
  split.
  - eapply isd_eq; [apply (d_mul (fun y => exp (m * x + n * y))); [auto_derive; [exact I|reflexivity]|exact Dt]|]. cbv beta. unfold e. ring.
  - exists (fun a b => exp (m * a + n * t) * (Fx a b + m * F a b t)), (fun a b => exp (m * a + n * t) * Fv a b). subst a2 a3. s7; intros; try reflexivity.
    + eapply isd_eq; [apply (d_mul (fun y => exp (m * y + n * t))); [apply Ex|apply H1]|]. cbv beta. ring.
    + apply d_scal_l. apply H2.
    + eapply isd_eq; [apply (d_mul (fun y => exp (m * y + n * t))); [apply Ex|apply d_add; [exact H5|apply d_scal_l; apply H1]]|]. cbv beta. unfold e. ring.
    + eapply isd_eq; [apply d_scal_l; apply d_add; [exact H6|apply d_scal_l; apply H2]|]. reflexivity.
    + apply d_scal_l. exact H7.
Qed.

Section Pde.
  Variables (csqrt cln : C -> C).
  Hypothesis Hsqrt : forall z, Cmult (csqrt z) (csqrt z) = z /\ 0 <= fst (csqrt z).
  Hypothesis Hln : forall z, slit z -> cln z = clog z.
  Variables (r q rho kappa theta sigma : R).
  Hypothesis Hsigma : 0 < sigma.
  Hypothesis Hrho : -1 < rho < 1.
  Hypothesis Hkappa : 0 < kappa /\ rho * sigma <= kappa.
  Let f (j : switch) (phi : R) (x v t : R) : C := h_f csqrt cln v t r q rho kappa theta sigma (exp x) j phi.
  Let Dt (j : switch) (phi : R) (t : R) : C := h_D csqrt t rho kappa sigma j phi.
  Definition log_ok (t : R) (j : switch) (phi : R) : Prop := slit (log_argument csqrt t rho kappa sigma j phi).
  Lemma f_dx : forall j phi x v t, cderive (fun y => f j phi y v t) x (Cmult (f j phi x v t) (Cmult Ci phi)).
  Proof.
    intros. unfold f, h_f. eapply cd_eq.
    - apply cd_cexp. apply cd_plus; [apply cd_const|]. apply (cd_mult (fun _ => Cmult Ci phi)); [apply cd_const|].
      apply (cd_ext (fun y => RtoC y)); [intro; rewrite ln_exp; reflexivity|apply cd_id].
    - cbv beta. ring.
  Qed.
  Lemma f_dv : forall j phi x v t, cderive (fun y => f j phi x y t) v (Cmult (f j phi x v t) (Dt j phi t)).
  Proof.
    intros. unfold f, h_f. eapply cd_eq.
    - apply cd_cexp. apply cd_plus; [|apply cd_const]. apply cd_plus; [apply cd_const|]. apply (cd_mult (fun _ => h_D csqrt t rho kappa sigma j phi)); [apply cd_const|apply cd_id].
    - cbv beta. unfold Dt. ring.
  Qed.
  Local Open Scope C_scope.
  Let rate (j : switch) (phi v t : R) : C :=
    RtoC (r - q) * Ci * phi + RtoC (kappa * theta) * Dt j phi t
    + (RtoC (/ 2 * sigma ^ 2) * (Dt j phi t * Dt j phi t) - (h_b rho kappa sigma j - RtoC (rho * sigma) * Ci * phi) * Dt j phi t + (RtoC (h_u j) * Ci * phi - RtoC (/ 2 * phi ^ 2))) * v.
  Lemma f_dt : forall j phi x v t, (phi <> 0)%R -> (0 <= t)%R -> log_ok t j phi -> cderive (fun y => f j phi x v y) t (f j phi x v t * rate j phi v t).
  Proof.
    intros j phi x v t Hp Ht HS. unfold f, h_f. eapply cd_eq.
    - apply cd_cexp. apply cd_plus; [|apply cd_const]. apply cd_plus.
      + apply linear_C; assumption.
      + apply (cd_mult (fun y => h_D csqrt y rho kappa sigma j phi) (fun _ => RtoC v)); [|apply cd_const]. apply riccati_D; assumption.
    - cbv beta. unfold rate, Dt. ring.
  Qed.
  Local Close Scope C_scope.
  Lemma cd_scal : forall K F t l, cderive F t l -> is_derive (fun y => fst (Cmult K (F y))) t (fst (Cmult K l)).
  Proof. intros K F t l H. assert (D := cd_mult (fun _ => K) F t (RtoC 0) l (cd_const K t) H). destruct D as [D _]. eapply isd_eq; [exact D|]. simpl. ring. Qed.
  Lemma f_partials : forall K j phi x v t, phi <> 0 -> 0 <= t -> log_ok t j phi ->
    let w := Cmult K (f j phi x v t) in let ip := Cmult Ci phi in let D := Dt j phi t in
    partials (fun x v t => fst (Cmult K (f j phi x v t))) x v t
      (fst (Cmult w (rate j phi v t))) (fst (Cmult w ip)) (fst (Cmult w D)) (fst (Cmult w (Cmult ip ip))) (fst (Cmult w (Cmult ip D))) (fst (Cmult w (Cmult D D))).
  Proof.
    intros K j phi x v t Hp Ht HS w ip D. unfold w. rewrite <- !Cmult_assoc. split; [apply cd_scal, f_dt; assumption|].
    exists (fun a b => fst (Cmult K (Cmult (f j phi a b t) ip))), (fun a b => fst (Cmult K (Cmult (f j phi a b t) D))). s7; intros; try reflexivity.
    - apply cd_scal, f_dx.
    - apply cd_scal, f_dv.
    - apply cd_scal. eapply cd_eq; [apply (cd_mult (fun y => f j phi y v t) (fun _ => ip)); [apply f_dx|apply cd_const]|]. unfold ip. ring.
    - apply cd_scal. eapply cd_eq; [apply (cd_mult (fun y => f j phi x y t) (fun _ => ip)); [apply f_dv|apply cd_const]|]. unfold ip, D. ring.
    - apply cd_scal. eapply cd_eq; [apply (cd_mult (fun y => f j phi x y t) (fun _ => D)); [apply f_dv|apply cd_const]|]. unfold D. ring.
  Qed.
  (** Heston's equation for the two in-the-money probabilities *)
  Definition prob_eq (j : switch) (F : R -> R -> R -> R) (x v t : R) : Prop :=
    exists ft fx fv fxx fxv fvv, partials F x v t ft fx fv fxx fxv fvv /\
    ft = / 2 * v * fxx + rho * sigma * v * fxv + / 2 * sigma ^ 2 * v * fvv + (r - q + h_u j * v) * fx + (kappa * theta - h_b rho kappa sigma j * v) * fv.
  Lemma f_prob : forall K j phi x v t, phi <> 0 -> 0 <= t -> log_ok t j phi -> prob_eq j (fun x v t => fst (Cmult K (f j phi x v t))) x v t.
  Proof.
    intros K j phi x v t Hp Ht HS. pose proof (f_partials K j phi x v t Hp Ht HS) as P. cbv zeta in P.
    do 6 eexists. split; [exact P|]. unfold rate. set (w := Cmult K (f j phi x v t)). set (D := Dt j phi t). clearbody w D. destruct w as [w1 w2], D as [D1 D2].
    cbn [fst snd Cmult Cplus Cminus Copp RtoC Ci]. field.
  Qed.
  Lemma prob_add : forall j F G x v t, prob_eq j F x v t -> prob_eq j G x v t -> prob_eq j (fun x v t => F x v t + G x v t) x v t.
  Proof.
    intros j F G x v t (a1 & a2 & a3 & a4 & a5 & a6 & P & E) (b1 & b2 & b3 & b4 & b5 & b6 & P' & E'). do 6 eexists. split; [apply partials_add; [exact P|exact P']|]. rewrite E, E'. ring.
  Qed.
  Lemma prob_scal : forall c j F x v t, prob_eq j F x v t -> prob_eq j (fun x v t => c * F x v t) x v t.
  Proof. intros c j F x v t (a1 & a2 & a3 & a4 & a5 & a6 & P & E). do 6 eexists. split; [apply partials_scal; exact P|]. rewrite E. ring. Qed.
  Lemma prob_const : forall c j x v t, prob_eq j (fun _ _ _ => c) x v t.
  Proof. intros. do 6 eexists. split; [apply partials_const|]. ring. Qed.
  Lemma prob_ext : forall j F G x v t, (forall x v t, F x v t = G x v t) -> prob_eq j F x v t -> prob_eq j G x v t.
  Proof. intros j F G x v t E (a1 & a2 & a3 & a4 & a5 & a6 & P & Q). exists a1, a2, a3, a4, a5, a6. split; [|exact Q]. apply (partials_ext F); assumption. Qed.
  Variable nodes : list (R * R).
  Hypothesis Hnodes : forall n, In n nodes -> -1 <= fst n <= 1.
  (** the points the quadrature rule visits on [1e-5, 50] *)
  Definition visited (n : R * R) : R := / 2 * (50 - 1 / 100000) * fst n + / 2 * (1 / 100000 + 50).
  Lemma visited_pos : forall n, In n nodes -> 0 < visited n.
  Proof. intros n H. unfold visited. pose proof (Hnodes n H). nra. Qed.
  Lemma re_form : forall s k j v t phi, h_re csqrt cln v t r q rho kappa theta sigma s k j phi
    = fst (Cmult (Cdiv (cexp (Cmult (Cmult (Copp Ci) phi) (RtoC (ln k)))) (Cmult Ci phi)) (h_f csqrt cln v t r q rho kappa theta sigma s j phi)).
  Proof. intros. unfold h_re, Cdiv. f_equal. ring. Qed.
  Lemma P_prob : forall k j x v t, 0 <= t -> (forall n, In n nodes -> log_ok t j (visited n)) ->
    prob_eq j (fun x v t => h_P csqrt cln nodes v t r q rho kappa theta sigma (exp x) k j) x v t.
  Proof.
    intros k j x v t Ht HS. unfold h_P, integrate. apply (prob_add j (fun _ _ _ => / 2)); [apply prob_const|]. apply prob_scal. apply prob_scal.
    revert HS. pose proof visited_pos as VP. clear Hnodes. revert VP. induction nodes as [|n l IH]; intros VP HS; simpl; [apply prob_const|].
    apply (prob_add j (fun x v t => snd n * h_re csqrt cln v t r q rho kappa theta sigma (exp x) k j (visited n))).
    - apply prob_scal. eapply prob_ext; [intros; symmetry; apply re_form|]. apply f_prob; [pose proof (VP n (or_introl eq_refl)); lra|exact Ht|apply HS; left; reflexivity].
    - apply IH; intros; [apply VP|apply HS]; right; assumption.
  Qed.
  (** Heston's pricing equation in [x], the logarithm of the asset price *)
  Definition price_eq (F : R -> R -> R -> R) (x v t : R) : Prop :=
    exists ft fx fv fxx fxv fvv, partials F x v t ft fx fv fxx fxv fvv /\
    ft = / 2 * v * fxx + rho * sigma * v * fxv + / 2 * sigma ^ 2 * v * fvv + (r - q - / 2 * v) * fx + kappa * (theta - v) * fv - r * F x v t.
  Lemma price_one : forall F x v t, prob_eq One F x v t -> price_eq (fun x v t => exp (1 * x + - q * t) * F x v t) x v t.
  Proof.
    intros F x v t (a1 & a2 & a3 & a4 & a5 & a6 & P & E). do 6 eexists. split; [apply (partials_exp 1 (- q)); exact P|]. rewrite E. simpl h_u; simpl h_b. field.
  Qed.
  Lemma price_two : forall F x v t, prob_eq Two F x v t -> price_eq (fun x v t => exp (0 * x + - r * t) * F x v t) x v t.
  Proof.
    intros F x v t (a1 & a2 & a3 & a4 & a5 & a6 & P & E). do 6 eexists. split; [apply (partials_exp 0 (- r)); exact P|]. rewrite E. simpl h_u; simpl h_b. field.
  Qed.
  Lemma price_add : forall F G x v t, price_eq F x v t -> price_eq G x v t -> price_eq (fun x v t => F x v t + G x v t) x v t.
  Proof.
    intros F G x v t (a1 & a2 & a3 & a4 & a5 & a6 & P & E) (b1 & b2 & b3 & b4 & b5 & b6 & P' & E'). do 6 eexists. split; [apply partials_add; [exact P|exact P']|]. rewrite E, E'. ring.
  Qed.
  Lemma price_scal : forall c F x v t, price_eq F x v t -> price_eq (fun x v t => c * F x v t) x v t.
  Proof. intros c F x v t (a1 & a2 & a3 & a4 & a5 & a6 & P & E). do 6 eexists. split; [apply partials_scal; exact P|]. rewrite E. ring. Qed.
  Lemma price_ext : forall F G x v t, (forall x v t, F x v t = G x v t) -> price_eq F x v t -> price_eq G x v t.
  Proof. intros F G x v t E (a1 & a2 & a3 & a4 & a5 & a6 & P & Q). exists a1, a2, a3, a4, a5, a6. split; [apply (partials_ext F); assumption|]. rewrite Q, E. reflexivity. Qed.
  Lemma call_price : forall k x v t, 0 <= t -> (forall j n, In n nodes -> log_ok t j (visited n)) ->
    price_eq (fun x v t => heston_call csqrt cln nodes v t r q rho kappa theta sigma (exp x) k) x v t.
  Proof.
    intros k x v t Ht HS. unfold heston_call.
    eapply price_ext; [|apply price_add; [apply price_one; apply (P_prob k One); [exact Ht|apply HS]|apply (price_scal (- k)); apply price_two; apply (P_prob k Two); [exact Ht|apply HS]]].
    intros. cbv beta. rewrite !exp_plus, !Rmult_0_l, Rmult_1_l, exp_0. ring.
  Qed.
  Lemma put_price : forall k x v t, 0 <= t -> (forall j n, In n nodes -> log_ok t j (visited n)) ->
    price_eq (fun x v t => heston_put csqrt cln nodes v t r q rho kappa theta sigma (exp x) k) x v t.
  Proof.
    intros k x v t Ht HS. unfold heston_put.
    eapply price_ext; [|apply price_add; [apply (call_price k); assumption|apply price_add; [apply (price_scal k); apply price_two; apply (prob_const 1 Two)|apply (price_scal (- 1)); apply price_one; apply (prob_const 1 One)]]].
    intros. cbv beta. rewrite !exp_plus, !Rmult_0_l, Rmult_1_l, exp_0. ring.
  Qed.
End Pde.

(** ** In the asset price itself *)
(** [V s v t] satisfies Heston's pricing equation at [(s, v, t)], [t] the time to expiry. *)
Definition solves_heston (V : R -> R -> R -> R) (r q rho kappa theta sigma s v t : R) : Prop :=
  exists (Vs Vv : R -> R -> R) (vt vss vsv vvv : R),
    (forall a b, 0 < a -> is_derive (fun y => V y b t) a (Vs a b)) /\
    (forall a b, 0 < a -> is_derive (fun y => V a y t) b (Vv a b)) /\
    is_derive (fun y => V s v y) t vt /\ is_derive (fun y => Vs y v) s vss /\ is_derive (fun y => Vs s y) v vsv /\ is_derive (fun y => Vv s y) v vvv /\
    vt = / 2 * v * s ^ 2 * vss + rho * sigma * v * s * vsv + / 2 * sigma ^ 2 * v * vvv + (r - q) * s * Vs s v + kappa * (theta - v) * Vv s v - r * V s v t.
Lemma to_price : forall r q rho kappa theta sigma (V : R -> R -> R -> R) s v t, 0 < s ->
  price_eq r q rho kappa theta sigma (fun x v t => V (exp x) v t) (ln s) v t -> solves_heston V r q rho kappa theta sigma s v t.
Proof.
  intros r q rho kappa theta sigma V s v t Hs (ft & fx & fv & fxx & fxv & fvv & (Dt & Fx & Fv & H1 & H2 & H3 & H4 & H5 & H6 & H7) & E).
  exists (fun a b => Fx (ln a) b / a), (fun a b => Fv (ln a) b), ft, ((fxx - fx) / s ^ 2), (fxv / s), fvv. rewrite exp_ln in * by exact Hs.
  s7.
  - intros a b Ha. apply (is_derive_ext_loc (fun y => V (exp (ln y)) b t)).
    + exists (mkposreal a Ha). intros y Hy. rewrite exp_ln; [reflexivity|]. unfold ball in Hy; simpl in Hy. unfold AbsRing_ball, abs, minus, plus, opp in Hy; simpl in Hy. apply Rabs_def2 in Hy. lra.
    + eapply isd_eq; [apply (d_chain (fun x => V (exp x) b t) ln); [apply H1|apply is_derive_ln; exact Ha]|]. field. lra.
  - intros a b Ha. pose proof (H2 (ln a) b) as K. rewrite exp_ln in K by exact Ha. exact K.
  - exact Dt.
  - eapply isd_eq; [apply (d_quot (fun y => Fx (ln y) v) (fun y => y)); [apply (d_chain (fun x => Fx x v) ln); [exact H5|apply is_derive_ln; exact Hs]|apply d_id|lra]|]. rewrite H3. field. lra.
  - apply (isd_ext (fun y => / s * Fx (ln s) y)); [intro; unfold Rdiv; ring|]. eapply isd_eq; [apply d_scal_l; exact H6|]. unfold Rdiv. ring.
  - exact H7.
  - rewrite E, H3, H4. field. lra.
Qed.

Theorem heston_prices_solve : forall csqrt cln nodes r q rho kappa theta sigma s v t k,
  (forall z, Cmult (csqrt z) (csqrt z) = z /\ 0 <= fst (csqrt z)) -> (forall z, slit z -> cln z = clog z) ->
  (forall n, In n nodes -> -1 <= fst n <= 1) -> 0 < sigma -> -1 < rho < 1 -> 0 < kappa /\ rho * sigma <= kappa -> 0 < s -> 0 <= t ->
  (forall j n, In n nodes -> log_ok csqrt rho kappa sigma t j (visited n)) ->
  solves_heston (fun s v t => heston_call csqrt cln nodes v t r q rho kappa theta sigma s k) r q rho kappa theta sigma s v t /\
  solves_heston (fun s v t => heston_put csqrt cln nodes v t r q rho kappa theta sigma s k) r q rho kappa theta sigma s v t.
Proof.
  intros. split; apply to_price; try assumption; [apply call_price|apply put_price]; assumption.
Qed.
