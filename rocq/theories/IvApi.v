(** The implied volatility functions a user calls: when they answer, that the
    answer is positive, parity, scaling, an exact round trip, and the carry. *)
From Coq Require Import Reals Lra Lia Psatz Arith Bool.
From Coquelicot Require Import Coquelicot.
From Verif Require Import Res InterpModel StatModel SpecialFns DistModel DistGauss BsmModel BsmProofs PayoffModel IvModel IvMath IvExp IvCubic IvBlack IvStep IvGuess.
Open Scope R_scope.

(** ** The normalised Black function and the Black-Scholes-Merton price *)
Definition bsm_price (flag : type_flag) (S K T r v : R) : R := match flag with Call => call_price S K T r r v | Put => put_price S K T r r v end.
Lemma exp_ln_half F K : 0 < F -> 0 < K -> exp (ln (F / K) / 2) = sqrt F / sqrt K.
Proof.
  intros HF HK. pose proof (sqrt_lt_R0 F HF) as A. pose proof (sqrt_lt_R0 K HK) as B. rewrite <- (exp_ln (sqrt F / sqrt K)) by (apply Rdiv_lt_0_compat; assumption). f_equal.
  replace (F / K) with ((sqrt F / sqrt K) * (sqrt F / sqrt K)). 2:{ rewrite <- (sqrt_sqrt F) at 3 by lra. rewrite <- (sqrt_sqrt K) at 3 by lra. field. lra. }
  rewrite ln_mult by (apply Rdiv_lt_0_compat; assumption). field.
Qed.
Lemma exp_ln_mhalf F K : 0 < F -> 0 < K -> exp (- ln (F / K) / 2) = sqrt K / sqrt F.
Proof. intros HF HK. replace (- ln (F / K) / 2) with (ln (K / F) / 2); [now apply exp_ln_half|]. rewrite !ln_div by assumption. field. Qed.
Theorem price_is_normalised_black : forall S K T r v, 0 < S -> 0 < K -> 0 < T -> 0 < v ->
  let F := S * exp (r * T) in
  call_price S K T r r v * exp (r * T) = sqrt F * sqrt K * nblack (ln (F / K)) (v * sqrt T) /\
  put_price S K T r r v * exp (r * T) = sqrt F * sqrt K * nblack (- ln (F / K)) (v * sqrt T).
Proof.
  intros S K T r v HS HK HT Hv F. pose proof (exp_pos (r * T)) as E. assert (HF : 0 < F) by (apply Rmult_lt_0_compat; assumption).
  pose proof (sqrt_lt_R0 T HT) as TS. pose proof (sqrt_lt_R0 F HF) as FS. pose proof (sqrt_lt_R0 K HK) as KS.
  assert (D1 : d1 S K T r v = ln (F / K) / (v * sqrt T) + v * sqrt T / 2).
  { unfold d1, F. replace (S * exp (r * T) / K) with (S / K * exp (r * T)) by (field; lra). rewrite ln_mult, ln_exp by (try apply Rdiv_lt_0_compat; lra).
    assert (T2 : T = sqrt T * sqrt T) by (rewrite sqrt_sqrt; lra). set (q := sqrt T) in *. clearbody q. subst T. field. lra. }
  assert (D2 : d2 S K T r v = ln (F / K) / (v * sqrt T) - v * sqrt T / 2) by (unfold d2; rewrite D1; field; lra).
  assert (ER : exp (- r * T) * exp (r * T) = 1) by (rewrite <- exp_plus; replace (- r * T + r * T) with 0 by ring; apply exp_0).
  assert (F2 : sqrt F * sqrt F = F) by (apply sqrt_sqrt; lra). assert (K2 : sqrt K * sqrt K = K) by (apply sqrt_sqrt; lra).
  unfold call_price, put_price, nblack. rewrite D1, D2. replace ((r - r) * T) with 0 by ring. rewrite exp_0, Rmult_1_r.
  set (h := ln (F / K) / (v * sqrt T)). set (t := v * sqrt T / 2).
  replace (- ln (F / K) / (v * sqrt T)) with (- h) by (unfold h; field; lra). replace (- - ln (F / K) / 2) with (ln (F / K) / 2) by field.
  rewrite exp_ln_half, exp_ln_mhalf by assumption. split.
  - replace (sqrt F * sqrt K * (ncdf (h + t) * (sqrt F / sqrt K) - ncdf (h - t) * (sqrt K / sqrt F))) with (sqrt F * sqrt F * ncdf (h + t) - sqrt K * sqrt K * ncdf (h - t)) by (field; lra).
    rewrite F2, K2. unfold F. replace ((S * ncdf (h + t) - K * exp (- r * T) * ncdf (h - t)) * exp (r * T)) with (S * exp (r * T) * ncdf (h + t) - K * ncdf (h - t) * (exp (- r * T) * exp (r * T))) by ring. rewrite ER. ring.
  - replace (- h + t) with (- (h - t)) by ring. replace (- h - t) with (- (h + t)) by ring.
    replace (sqrt F * sqrt K * (ncdf (- (h - t)) * (sqrt K / sqrt F) - ncdf (- (h + t)) * (sqrt F / sqrt K))) with (sqrt K * sqrt K * ncdf (- (h - t)) - sqrt F * sqrt F * ncdf (- (h + t))) by (field; lra).
    rewrite F2, K2. unfold F. replace ((- S * 1 * ncdf (- (h + t)) + K * exp (- r * T) * ncdf (- (h - t))) * exp (r * T)) with (- (S * exp (r * T)) * ncdf (- (h + t)) + K * ncdf (- (h - t)) * (exp (- r * T) * exp (r * T))) by ring.
    try (replace ((- S * ncdf (- (h + t)) + K * exp (- r * T) * ncdf (- (h - t))) * exp (r * T)) with (- (S * exp (r * T)) * ncdf (- (h + t)) + K * ncdf (- (h - t)) * (exp (- r * T) * exp (r * T))) by ring).
    rewrite ER. ring.
Qed.
Print Assumptions price_is_normalised_black.
Example price_is_normalised_black_case : 0 < 100 /\ 0 < 110 /\ 0 < / 2 /\ 0 < / 5. Proof. lra. Qed.

(** ** Existence and uniqueness of the implied volatility *)
Lemma nblack_cont x s : 0 < s -> continuous (fun s => nblack x s) s.
Proof. intros Hs. apply (@ex_derive_continuous R_AbsRing R_NormedModule). eexists. apply nblack_derive, Hs. Qed.
Lemma nblack_small x b : x <= 0 -> 0 < b -> exists s, 0 < s /\ nblack x s < b.
Proof.
  intros Hx Hb. pose proof sqrt_2PI_pos as Q. assert (IQ : / sqrt (2 * PI) <= / 2).
  { apply Rinv_le_contravar; [lra|]. rewrite <- (sqrt_pow2 2) at 1 by lra. apply sqrt_le_1_alt. pose proof PI2_3_2. lra. }
  assert (IP : 0 < / sqrt (2 * PI)) by now apply Rinv_0_lt_compat.
  destruct (Req_dec x 0) as [Z|Z].
  - exists b. split; [exact Hb|]. subst x. unfold nblack. replace (0 / b + b / 2) with (b / 2) by (field; lra). replace (0 / b - b / 2) with (- (b / 2)) by (field; lra).
    replace (0 / 2) with 0 by field. replace (- 0 / 2) with 0 by field. rewrite exp_0.
    destruct (mvt ncdf npdf (- (b / 2)) (b / 2)) as (c & _ & E); [lra|intros; apply ncdf_derive|].
    assert (npdf c <= / 2). { unfold npdf. assert (exp (- / 2 * c ^ 2) <= 1); [|nra]. rewrite <- exp_0 at 1. pose proof (pow2_ge_0 c). destruct (Req_dec (c ^ 2) 0) as [Z|Z]; [rewrite Z; right; f_equal; ring|left; apply exp_increasing; lra]. }
    nra.
  - set (s := Rmin b (sqrt (- 2 * x))). assert (Sq : 0 < sqrt (- 2 * x)) by (apply sqrt_lt_R0; lra). assert (Hs : 0 < s) by (unfold s; apply Rmin_glb_lt; assumption).
    exists s. split; [exact Hs|]. assert (S1 : s <= b) by apply Rmin_l. assert (S2 : s * s <= - 2 * x). { rewrite <- (sqrt_sqrt (- 2 * x)) by lra. assert (s <= sqrt (- 2 * x)) by apply Rmin_r. apply Rmult_le_compat; lra. }
    rewrite nblack_Y by lra. assert (HT : x / s + s / 2 <= 0). { apply Rmult_le_reg_r with s; [exact Hs|]. replace ((x / s + s / 2) * s) with (x + s * s / 2) by (field; lra). lra. }
    destruct (Y_diff_le (x / s - s / 2) (x / s + s / 2)) as [D _]; [lra|exact HT|]. replace (x / s + s / 2 - (x / s - s / 2)) with s in D by (field; lra).
    assert (P : 0 < pref (x / s) (s / 2) <= / 2). { split; [apply pref_pos|]. change (pref (x / s) (s / 2)) with (nvega x s). pose proof (nvega_le x s). lra. }
    set (d := Y (x / s + s / 2) - Y (x / s - s / 2)) in *. clearbody d. nra.
Qed.
Lemma nblack_large x b : x <= 0 -> 0 < b < exp (x / 2) -> exists s, 0 < s /\ b < nblack x s.
Proof.
  intros Hx Hb. pose proof (exp_pos (x / 2)) as E1. pose proof (exp_pos (- x / 2)) as E2.
  set (e := (exp (x / 2) - b) / (exp (x / 2) + exp (- x / 2))). assert (He : 0 < e) by (apply Rdiv_lt_0_compat; lra).
  assert (LP := ncdf_lim_p). apply is_lim_spec in LP. destruct (LP (mkposreal e He)) as [M HM]. cbn [pos] in HM.
  assert (H1 : forall y, M < y -> 1 - e < ncdf y) by (intros y Hy; specialize (HM y Hy); apply Rabs_def2 in HM; lra).
  set (s := 2 * (Rmax M 0 + 1) + 2 + - 2 * x). pose proof (Rmax_l M 0) as R1. pose proof (Rmax_r M 0) as R2. assert (Hs : 2 <= s) by (unfold s; lra). exists s. split; [lra|].
  assert (XS : x / 2 <= x / s <= 0). { split; apply Rmult_le_reg_r with s; try lra; unfold Rdiv; [rewrite (Rmult_assoc x (/ s)), Rinv_l by lra|rewrite Rmult_assoc, Rinv_l by lra]; nra. }
  assert (A : 1 - e < ncdf (x / s + s / 2)) by (apply H1; unfold s in *; lra).
  assert (B : ncdf (x / s - s / 2) < e). { replace (x / s - s / 2) with (- (s / 2 - x / s)) by ring. rewrite ncdf_sym. assert (1 - e < ncdf (s / 2 - x / s)); [|lra]. apply H1. unfold s in *. lra. }
  unfold nblack. assert (EE : e * (exp (x / 2) + exp (- x / 2)) = exp (x / 2) - b) by (unfold e; field; lra).
  set (p := ncdf (x / s + s / 2)) in *. set (q := ncdf (x / s - s / 2)) in *. clearbody p q.
  assert ((1 - e) * exp (x / 2) < p * exp (x / 2)) by (apply Rmult_lt_compat_r; lra). assert (q * exp (- x / 2) < e * exp (- x / 2)) by (apply Rmult_lt_compat_r; lra). lra.
Qed.
Lemma nblack_onto x b : x <= 0 -> 0 < b < exp (x / 2) -> exists s, 0 < s /\ nblack x s = b.
Proof.
  intros Hx Hb. destruct (nblack_small x b Hx ltac:(lra)) as (s1 & P1 & B1). destruct (nblack_large x b Hx Hb) as (s2 & P2 & B2).
  assert (L : s1 < s2). { destruct (Rtotal_order s1 s2) as [L|[L|L]]; [exact L|subst; lra|]. pose proof (nblack_increasing x s2 s1 P2 L). lra. }
  destruct (Ranalysis5.IVT_interv (fun s => nblack x s - b) s1 s2) as (s & Hs & E).
  - intros s Hs. apply continuity_pt_minus; [|apply continuity_pt_const; intros ? ?; reflexivity]. apply continuity_pt_filterlim. apply (nblack_cont x s). lra.
  - exact L.
  - lra.
  - lra.
  - exists s. split; [lra|]. lra.
Qed.
Lemma nblack_inj x a b : 0 < a -> 0 < b -> nblack x a = nblack x b -> a = b.
Proof. intros A B E. destruct (Rtotal_order a b) as [L|[L|L]]; [pose proof (nblack_increasing x a b A L); lra|exact L|pose proof (nblack_increasing x b a B L); lra]. Qed.
Lemma nblack_range x b : (exists s, 0 < s /\ nblack x s = b) <-> Rmax (exp (x / 2) - exp (- x / 2)) 0 < b < exp (x / 2).
Proof.
  assert (EX : forall x, x <= 0 -> exp (x / 2) <= exp (- x / 2)). { intros y Hy. destruct (Req_dec y 0) as [->|]; [right; f_equal; field|left; apply exp_increasing; lra]. }
  split.
  - intros (s & Hs & <-). pose proof (nblack_pos x s Hs). pose proof (nblack_lt x s Hs). split; [|assumption]. apply Rmax_lub_lt; [|assumption]. rewrite nblack_sym by exact Hs. pose proof (nblack_pos (- x) s Hs). lra.
  - intros [L U]. destruct (Rle_lt_dec x 0) as [Hx|Hx].
    + apply nblack_onto; [exact Hx|]. pose proof (Rmax_r (exp (x / 2) - exp (- x / 2)) 0). lra.
    + pose proof (Rmax_l (exp (x / 2) - exp (- x / 2)) 0). destruct (nblack_onto (- x) (b - (exp (x / 2) - exp (- x / 2)))) as (s & Hs & E); [lra|lra|].
      exists s. split; [exact Hs|]. rewrite nblack_sym by exact Hs. lra.
Qed.

(** the discounted no-arbitrage bounds *)
Definition price_floor (flag : type_flag) (S K T r : R) : R := Rmax (match flag with Call => S - K * exp (- r * T) | Put => K * exp (- r * T) - S end) 0.
Definition price_cap (flag : type_flag) (S K T r : R) : R := match flag with Call => S | Put => K * exp (- r * T) end.

(** A volatility reproducing a price exists exactly strictly between the bounds,
    and is then unique. *)
Theorem implied_volatility_exists : forall flag S K T r price, 0 < S -> 0 < K -> 0 < T ->
  ((exists v, 0 < v /\ bsm_price flag S K T r v = price) <-> price_floor flag S K T r < price < price_cap flag S K T r) /\
  forall v w, 0 < v -> 0 < w -> bsm_price flag S K T r v = bsm_price flag S K T r w -> v = w.
Proof.
  intros flag S K T r price HS HK HT. set (F := S * exp (r * T)). pose proof (exp_pos (r * T)) as ER. assert (HF : 0 < F) by (apply Rmult_lt_0_compat; assumption).
  pose proof (sqrt_lt_R0 T HT) as TS. pose proof (sqrt_lt_R0 F HF) as FS. pose proof (sqrt_lt_R0 K HK) as KS.
  set (q := match flag with Call => 1 | Put => -1 end).
  assert (EI : exp (- r * T) * exp (r * T) = 1) by (rewrite <- exp_plus; replace (- r * T + r * T) with 0 by ring; apply exp_0).
  assert (P : forall v, 0 < v -> bsm_price flag S K T r v * exp (r * T) = sqrt F * sqrt K * nblack (q * ln (F / K)) (v * sqrt T)).
  { intros v Hv. destruct (price_is_normalised_black S K T r v HS HK HT Hv) as [C Q]. fold F in C, Q. unfold bsm_price, q. destruct flag; [rewrite Rmult_1_l; exact C|]. replace (-1 * ln (F / K)) with (- ln (F / K)) by ring. exact Q. }
  assert (FK : 0 < sqrt F * sqrt K) by (apply Rmult_lt_0_compat; assumption).
  assert (F2 : sqrt F * sqrt F = F) by (apply sqrt_sqrt; lra). assert (K2 : sqrt K * sqrt K = K) by (apply sqrt_sqrt; lra).
  assert (EQ : (exp (q * ln (F / K) / 2) = sqrt F / sqrt K /\ exp (- (q * ln (F / K)) / 2) = sqrt K / sqrt F /\ flag = Call) \/ (exp (q * ln (F / K) / 2) = sqrt K / sqrt F /\ exp (- (q * ln (F / K)) / 2) = sqrt F / sqrt K /\ flag = Put)).
  { unfold q. destruct flag.
    - left. rewrite Rmult_1_l. rewrite exp_ln_half, exp_ln_mhalf by assumption. tauto.
    - right. replace (-1 * ln (F / K)) with (- ln (F / K)) by ring. rewrite Ropp_involutive. rewrite exp_ln_half, exp_ln_mhalf by assumption. tauto. }
  assert (CAP : sqrt F * sqrt K * exp (q * ln (F / K) / 2) = price_cap flag S K T r * exp (r * T)).
  { destruct EQ as [(-> & _ & ->)|(-> & _ & ->)]; unfold price_cap.
    - replace (sqrt F * sqrt K * (sqrt F / sqrt K)) with (sqrt F * sqrt F) by (field; lra). exact F2.
    - replace (sqrt F * sqrt K * (sqrt K / sqrt F)) with (sqrt K * sqrt K) by (field; lra). rewrite K2, Rmult_assoc, EI. ring. }
  assert (FLOOR : sqrt F * sqrt K * Rmax (exp (q * ln (F / K) / 2) - exp (- (q * ln (F / K)) / 2)) 0 = price_floor flag S K T r * exp (r * T)).
  { unfold price_floor. rewrite (Rmult_comm (Rmax _ 0) (exp (r * T))). rewrite <- !RmaxRmult by lra. rewrite !Rmult_0_r. f_equal.
    destruct EQ as [(-> & -> & ->)|(-> & -> & ->)].
    - replace (sqrt F * sqrt K * (sqrt F / sqrt K - sqrt K / sqrt F)) with (sqrt F * sqrt F - sqrt K * sqrt K) by (field; lra). rewrite F2, K2. unfold F. replace (exp (r * T) * (S - K * exp (- r * T))) with (S * exp (r * T) - K * (exp (- r * T) * exp (r * T))) by ring. rewrite EI. ring.
    - replace (sqrt F * sqrt K * (sqrt K / sqrt F - sqrt F / sqrt K)) with (sqrt K * sqrt K - sqrt F * sqrt F) by (field; lra). rewrite F2, K2. unfold F. replace (exp (r * T) * (K * exp (- r * T) - S)) with (K * (exp (- r * T) * exp (r * T)) - S * exp (r * T)) by ring. rewrite EI. ring. }
  set (x := q * ln (F / K)) in *. split.
  - transitivity (exists s, 0 < s /\ nblack x s = price * exp (r * T) / (sqrt F * sqrt K)).
    { split.
      - intros (v & Hv & E). exists (v * sqrt T). split; [apply Rmult_lt_0_compat; assumption|]. rewrite <- E, P by exact Hv. field. lra.
      - intros (s & Hs & E). exists (s / sqrt T). assert (Hv : 0 < s / sqrt T) by (apply Rdiv_lt_0_compat; assumption). split; [exact Hv|].
        apply Rmult_eq_reg_r with (exp (r * T)); [|lra]. rewrite P by exact Hv. replace (s / sqrt T * sqrt T) with s by (field; lra). rewrite E. field. lra. }
    rewrite nblack_range. set (m := Rmax (exp (x / 2) - exp (- x / 2)) 0) in *. set (M := exp (x / 2)) in *. clearbody m M.
    assert (A : forall a, a < price * exp (r * T) / (sqrt F * sqrt K) <-> sqrt F * sqrt K * a < price * exp (r * T)).
    { intros a. replace (price * exp (r * T)) with (sqrt F * sqrt K * (price * exp (r * T) / (sqrt F * sqrt K))) at 2 by (field; lra). split; intros L; [apply Rmult_lt_compat_l; assumption|apply Rmult_lt_reg_l in L; assumption]. }
    assert (B : forall a, price * exp (r * T) / (sqrt F * sqrt K) < a <-> price * exp (r * T) < sqrt F * sqrt K * a).
    { intros a. replace (price * exp (r * T)) with (sqrt F * sqrt K * (price * exp (r * T) / (sqrt F * sqrt K))) at 2 by (field; lra). split; intros L; [apply Rmult_lt_compat_l; assumption|apply Rmult_lt_reg_l in L; assumption]. }
    rewrite A, B, FLOOR, CAP. split; intros [L1 L2]; split; try (apply Rmult_lt_reg_r in L1; assumption); try (apply Rmult_lt_reg_r in L2; assumption); apply Rmult_lt_compat_r; assumption.
  - intros v w Hv Hw E. assert (E2 : nblack x (v * sqrt T) = nblack x (w * sqrt T)). { apply Rmult_eq_reg_l with (sqrt F * sqrt K); [|lra]. rewrite <- !P by assumption. now rewrite E. }
    apply nblack_inj in E2; [|apply Rmult_lt_0_compat; assumption..]. apply Rmult_eq_reg_r in E2; [exact E2|lra].
Qed.
Print Assumptions implied_volatility_exists.
Example implied_volatility_exists_case : price_floor Call 100 100 1 0 < 5 < price_cap Call 100 100 1 0.
Proof. unfold price_floor, price_cap. replace (- 0 * 1) with 0 by ring. rewrite exp_0. rewrite Rmax_right by lra. lra. Qed.

(** ** The iterations keep the volatility positive *)
Lemma householder_loop_positive step x beta n : forall it reversals s ds dsp sl sr, 0 < s -> 0 <= sl -> 0 < sr ->
  householder_loop step x beta n it reversals s ds dsp sl sr = PosInf \/
  exists v, householder_loop step x beta n it reversals s ds dsp sl sr = Fin v /\ 0 < v.
Proof.
  induction n as [|n IH]; intros it rev s ds dsp sl sr Hs Hl Hr; cbn [householder_loop]; [right; eexists; split; [reflexivity|exact Hs]|].
  destruct (negb (Rltb (f64_eps * s) (Rabs ds))); [right; eexists; split; [reflexivity|exact Hs]|].
  set (rev' := if Rltb (ds * dsp) 0 then _ else _). set (nest := (0 <? it)%nat && _). set (s' := if nest then / 2 * (sl + sr) else s).
  assert (Hs' : 0 < s') by (unfold s'; destruct nest; lra). clearbody s' rev' nest.
  destruct (nest && Rleb (sr - sl) (f64_eps * s')); [right; eexists; split; [reflexivity|exact Hs']|].
  set (b := normalised_black_call x s'). set (tr := Rltb beta b && Rltb s' sr). set (tl := negb tr && Rltb b beta && Rltb sl s').
  assert (Hsl : 0 <= (if tl then s' else sl)) by (destruct tl; lra). assert (Hsr : 0 < (if tr then s' else sr)) by (destruct tr; lra).
  assert (G : forall d it rev dsp, let ds := Rmax d (- / 2 * s') in
    householder_loop step x beta n it rev (s' + ds) ds dsp (if tl then s' else sl) (if tr then s' else sr) = PosInf \/
    exists v, householder_loop step x beta n it rev (s' + ds) ds dsp (if tl then s' else sl) (if tr then s' else sr) = Fin v /\ 0 < v).
  { intros d it' rv dp ds'. apply IH; try assumption. unfold ds'. pose proof (Rmax_r d (- / 2 * s')). lra. }
  cbv zeta in G. destruct (step _ _ _ _ _); [apply G|now left|apply G|apply G].
Qed.

(** ** What the solver answers *)
Lemma undiscounted_normalised erf_inv P F K T q : (q = 1 \/ q = -1) -> 0 < F -> 0 < K -> 
  let intrinsic := Rmax (q * (F - K)) 0 in let cap := if Rltb q 0 then K else F in
  let x := - Rabs (ln (F / K)) in
  intrinsic <= P < cap ->
  0 <= (P - intrinsic) / (sqrt F * sqrt K) < exp (x / 2) /\
  undiscounted_implied_volatility erf_inv P F K T q =
  scale_fval (/ sqrt T) (if Rleb ((P - intrinsic) / (sqrt F * sqrt K)) 0 then Fin 0 else
    let sg := choose_segment erf_inv ((P - intrinsic) / (sqrt F * sqrt K)) x in
    householder_loop (sg_step sg) x ((P - intrinsic) / (sqrt F * sqrt K)) 2 0 0 (sg_s sg) (- f64_max) 0 (sg_left sg) (sg_right sg)).
Proof.
  intros Hq HF HK intrinsic cap x HP. pose proof (sqrt_lt_R0 F HF) as FS. pose proof (sqrt_lt_R0 K HK) as KS.
  assert (FK : 0 < sqrt F * sqrt K) by (apply Rmult_lt_0_compat; assumption). assert (F2 : sqrt F * sqrt F = F) by (apply sqrt_sqrt; lra). assert (K2 : sqrt K * sqrt K = K) by (apply sqrt_sqrt; lra).
  assert (EI : Rmax (if Rltb q 0 then K - F else F - K) 0 = intrinsic).
  { unfold intrinsic. f_equal. destruct (Rltb_spec q 0); destruct Hq as [->| ->]; lra. }
  assert (LN : (F < K -> ln (F / K) < 0) /\ (K < F -> 0 < ln (F / K))).
  { rewrite ln_div by assumption. split; intros L; apply ln_increasing in L; lra. }
  set (l := ln (F / K)) in *.
  assert (EX : exp (x / 2) = Rmin (sqrt F / sqrt K) (sqrt K / sqrt F)).
  { pose proof (exp_ln_half F K HF HK) as E1. pose proof (exp_ln_mhalf F K HF HK) as E2. fold l in E1, E2. rewrite <- E1, <- E2. unfold x. destruct (Rle_lt_dec l 0) as [N|N].
    - rewrite Rabs_left1 by lra. rewrite Ropp_involutive. symmetry. apply Rmin_left. destruct N as [N| ->]; [left; apply exp_increasing; lra|right; f_equal; field].
    - rewrite Rabs_right by lra. symmetry. apply Rmin_right. left. apply exp_increasing. lra. }
  assert (BND : 0 <= (P - intrinsic) / (sqrt F * sqrt K) < exp (x / 2)).
  { split; [apply Rmult_le_pos; [lra|left; apply Rinv_0_lt_compat, FK]|]. rewrite EX.
    assert (PM : P - intrinsic < F /\ P - intrinsic < K).
    { pose proof (Rmax_l (q * (F - K)) 0) as M1. pose proof (Rmax_r (q * (F - K)) 0) as M2. fold intrinsic in M1, M2. revert HP. unfold cap. destruct (Rltb_spec q 0); destruct Hq as [E|E]; rewrite E in M1; lra. }
    apply Rmin_glb_lt; apply Rmult_lt_reg_r with (sqrt F * sqrt K); try exact FK; unfold Rdiv at 1; rewrite Rmult_assoc, Rinv_l, Rmult_1_r by lra.
    - replace (sqrt F / sqrt K * (sqrt F * sqrt K)) with (sqrt F * sqrt F) by (field; lra). lra.
    - replace (sqrt K / sqrt F * (sqrt F * sqrt K)) with (sqrt K * sqrt K) by (field; lra). lra. }
  split; [exact BND|].
  unfold undiscounted_implied_volatility. rewrite EI. fold cap. destruct (Rltb_spec P intrinsic) as [N|_]; [lra|]. destruct (Rleb_spec cap P) as [N|_]; [lra|]. fold l. cbv zeta.
  set (itm := Rltb 0 (q * l)).
  assert (NP : (if itm then Rmax (P - intrinsic) 0 else P) = P - intrinsic).
  { unfold itm. destruct (Rltb_spec 0 (q * l)) as [L|L]; [apply Rmax_left; lra|]. assert (Z : intrinsic = 0); [|lra].
    unfold intrinsic. apply Rmax_right. destruct LN as [LN1 LN2]. destruct Hq as [->| ->]; destruct (Rtotal_order F K) as [M|[M|M]]; try (specialize (LN1 M)); try (specialize (LN2 M)); lra. }
  rewrite NP. clear NP. f_equal. set (beta := (P - intrinsic) / (sqrt F * sqrt K)) in *.
  set (q' := if itm then - q else q).
  assert (Q' : q' * l <= 0 /\ (q' = 1 \/ q' = -1)). { unfold q', itm. destruct (Rltb_spec 0 (q * l)); split; destruct Hq as [->| ->]; lra. }
  clearbody q' beta. unfold normalised_implied_volatility, IMPLIED_VOLATILITY_MAXIMUM_ITERATIONS, DENORMALIZATION_CUTOFF. destruct (Rltb_spec 0 (q' * l)) as [N|_]; [lra|].
  assert (XQ : (if Rltb q' 0 then - l else l) = x).
  { unfold x. destruct (Rltb_spec q' 0); destruct Q' as [Q1 [->| ->]]; try lra; [rewrite Rabs_right; lra|rewrite Rabs_left1; lra]. }
  rewrite XQ. destruct (Rltb_spec beta 0) as [N|_]; [lra|]. destruct (Rleb_spec beta 0); [reflexivity|].
  replace (exp (/ 2 * x)) with (exp (x / 2)) by (f_equal; field). destruct (Rleb_spec (exp (x / 2)) beta) as [N|_]; [lra|]. reflexivity.
Qed.
Lemma undiscounted_outside erf_inv P F K T q : (q = 1 \/ q = -1) -> 
  (P < Rmax (q * (F - K)) 0 -> undiscounted_implied_volatility erf_inv P F K T q = NegInf) /\
  (Rmax (q * (F - K)) 0 <= P -> (if Rltb q 0 then K else F) <= P -> undiscounted_implied_volatility erf_inv P F K T q = PosInf).
Proof.
  intros Hq. assert (EI : Rmax (if Rltb q 0 then K - F else F - K) 0 = Rmax (q * (F - K)) 0).
  { f_equal. destruct (Rltb_spec q 0); destruct Hq as [->| ->]; lra. }
  unfold undiscounted_implied_volatility. rewrite EI. split; intros H.
  - destruct (Rltb_spec P (Rmax (q * (F - K)) 0)); [reflexivity|lra].
  - intros C. destruct (Rltb_spec P (Rmax (q * (F - K)) 0)); [lra|]. match goal with |- context [Rleb ?a P] => destruct (Rleb_spec a P); [reflexivity|lra] end.
Qed.

(** [implied_volatility] answers minus infinity exactly below the discounted
    intrinsic value, zero exactly at it, plus infinity at or above the cap, and a
    positive volatility between (plus infinity there only if a Householder divisor
    vanishes). *)
Theorem implied_volatility_answers : forall erf_inv price S K T r flag, erf_inv_spec erf_inv -> 0 < S -> 0 < K -> 0 < T ->
  Rabs (ln (S * exp (r * T) / K)) <= 10 ^ 6 ->
  let iv := implied_volatility erf_inv price S K T r flag in
  let lo := price_floor flag S K T r in let hi := price_cap flag S K T r in
  (price < lo <-> iv = NegInf) /\
  (hi <= price -> iv = PosInf) /\
  (price = lo <-> iv = Fin 0) /\
  (lo < price < hi -> iv = PosInf \/ exists v, iv = Fin v /\ 0 < v) /\ lo < hi.
Proof.
  intros erf_inv price S K T r flag HS HSp HK HT HX iv lo hi. pose proof (exp_pos (r * T)) as ER. set (F := S * exp (r * T)) in *. assert (HF : 0 < F) by (apply Rmult_lt_0_compat; assumption).
  assert (EI : exp (- r * T) * exp (r * T) = 1) by (rewrite <- exp_plus; replace (- r * T + r * T) with 0 by ring; apply exp_0). pose proof (exp_pos (- r * T)) as EN.
  set (q := match flag with Call => 1 | Put => -1 end). assert (Hq : q = 1 \/ q = -1) by (unfold q; destruct flag; tauto).
  assert (LO : lo * exp (r * T) = Rmax (q * (F - K)) 0).
  { unfold lo, price_floor. rewrite Rmult_comm, <- RmaxRmult by lra. rewrite Rmult_0_r. f_equal. unfold q, F. destruct flag.
    - replace (exp (r * T) * (S - K * exp (- r * T))) with (S * exp (r * T) - K * (exp (- r * T) * exp (r * T))) by ring. rewrite EI. ring.
    - replace (exp (r * T) * (K * exp (- r * T) - S)) with (K * (exp (- r * T) * exp (r * T)) - S * exp (r * T)) by ring. rewrite EI. ring. }
  assert (HI : hi * exp (r * T) = if Rltb q 0 then K else F).
  { unfold hi, price_cap, q. destruct flag; match goal with |- context [Rltb ?a 0] => destruct (Rltb_spec a 0); try lra end; [reflexivity|]. rewrite Rmult_assoc, EI. ring. }
  assert (IV : iv = undiscounted_implied_volatility erf_inv (price * exp (r * T)) F K T q) by reflexivity.
  assert (LH : lo < hi). { unfold lo, hi, price_floor, price_cap. assert (0 < K * exp (- r * T)) by (apply Rmult_lt_0_compat; assumption). destruct flag; apply Rmax_lub_lt; lra. }
  destruct (undiscounted_outside erf_inv (price * exp (r * T)) F K T q Hq) as [O1 O2]. rewrite <- LO, <- HI, <- IV in *.
  assert (OUT1 : price < lo -> iv = NegInf) by (intros L; apply O1; apply Rmult_lt_compat_r; assumption).
  assert (OUT2 : hi <= price -> iv = PosInf) by (intros L; apply O2; apply Rmult_le_compat_r; lra).
  pose proof (sqrt_lt_R0 F HF) as FS. pose proof (sqrt_lt_R0 K HK) as KS. assert (FK : 0 < sqrt F * sqrt K) by (apply Rmult_lt_0_compat; assumption).
  assert (IN : lo <= price < hi -> (price = lo -> iv = Fin 0) /\ (lo < price -> iv = PosInf \/ exists v, iv = Fin v /\ 0 < v)).
  { intros [L1 L2]. pose proof (undiscounted_normalised erf_inv (price * exp (r * T)) F K T q Hq HF HK) as U. cbv zeta in U. rewrite <- LO, <- HI, <- IV in U.
    destruct U as [B E]. { split; [apply Rmult_le_compat_r|apply Rmult_lt_compat_r]; lra. }
    set (beta := (price * exp (r * T) - lo * exp (r * T)) / (sqrt F * sqrt K)) in *. split.
    - intros ->. assert (Z : beta = 0) by (unfold beta; unfold Rdiv; ring). rewrite Z in E. destruct (Rleb_spec 0 0) as [_|N]; [|lra]. rewrite E. cbn [scale_fval]. f_equal. ring.
    - intros L. assert (BP : 0 < beta). { apply Rdiv_lt_0_compat; [|exact FK]. assert (lo * exp (r * T) < price * exp (r * T)) by (apply Rmult_lt_compat_r; assumption). lra. }
      destruct (Rleb_spec beta 0) as [N|_]; [lra|]. set (x := - Rabs (ln (F / K))) in *.
      assert (XR : - 10 ^ 6 <= x <= 0) by (unfold x; pose proof (Rabs_pos (ln (F / K))); lra).
      destruct (first_guess erf_inv beta x HS XR ltac:(lra)) as (G1 & G2 & G3 & _).
      destruct (householder_loop_positive (sg_step (choose_segment erf_inv beta x)) x beta 2 0 0 _ (- f64_max) 0 _ _ G1 G2 G3) as [H|(v & H & Hv)]; rewrite H in E; cbn [scale_fval] in E; [now left|].
      right. exists (/ sqrt T * v). split; [exact E|]. apply Rmult_lt_0_compat; [apply Rinv_0_lt_compat, sqrt_lt_R0, HT|exact Hv]. }
  assert (ALL : price < lo \/ price = lo \/ (lo < price < hi) \/ hi <= price) by lra.
  split; [|split; [exact OUT2|split; [|split; [|exact LH]]]].
  - split; [exact OUT1|]. intros E. destruct ALL as [A|[A|[A|A]]]; [exact A|..]; exfalso.
    + destruct IN as [I _]; [lra|]. rewrite I in E by exact A. discriminate.
    + destruct IN as [_ I]; [lra|]. destruct I as [I|(v & I & _)]; [lra|rewrite I in E; discriminate..].
    + rewrite OUT2 in E by exact A. discriminate.
  - split; [intros E; destruct IN as [I _]; [lra|now apply I]|]. intros E. destruct ALL as [A|[A|[A|A]]]; [|exact A|..]; exfalso.
    + rewrite OUT1 in E by exact A. discriminate.
    + destruct IN as [_ I]; [lra|]. destruct I as [I|(v & I & Hv)]; [lra|rewrite I in E; discriminate|]. rewrite I in E. injection E as E. lra.
    + rewrite OUT2 in E by exact A. discriminate.
  - intros L. destruct IN as [_ I]; [lra|]. apply I. lra.
Qed.
Print Assumptions implied_volatility_answers.
Example implied_volatility_answers_case : Rabs (ln (100 * exp (0 * 1) / 100)) <= 10 ^ 6.
Proof. rewrite Rmult_0_l, exp_0. replace (100 * 1 / 100) with 1 by field. rewrite ln_1, Rabs_R0. lra. Qed.

(** ** Parity and scaling *)
(** A call and a put whose prices satisfy put-call parity get the same implied
    volatility, whatever the prices. *)
Theorem implied_volatility_parity : forall erf_inv c p S K T r, 0 < S -> 0 < K ->
  c - p = S - K * exp (- r * T) ->
  implied_volatility erf_inv c S K T r Call = implied_volatility erf_inv p S K T r Put.
Proof.
  intros erf_inv c p S K T r HS HK E. pose proof (exp_pos (r * T)) as ER. set (F := S * exp (r * T)). assert (HF : 0 < F) by (apply Rmult_lt_0_compat; assumption).
  assert (EI : exp (- r * T) * exp (r * T) = 1) by (rewrite <- exp_plus; replace (- r * T + r * T) with 0 by ring; apply exp_0).
  assert (E' : c * exp (r * T) = p * exp (r * T) + (F - K)).
  { replace c with (p + (S - K * exp (- r * T))) by lra. unfold F. replace ((p + (S - K * exp (- r * T))) * exp (r * T)) with (p * exp (r * T) + (S * exp (r * T) - K * (exp (- r * T) * exp (r * T)))) by ring. rewrite EI. ring. }
  unfold implied_volatility. fold F. rewrite E'. set (P := p * exp (r * T)). clearbody P F. clear E E' EI ER HS.
  assert (Q1 : (1 = 1 \/ 1 = -1)) by lra. assert (Q2 : (-1 = 1 \/ -1 = -1)) by lra.
  assert (IC : Rmax (1 * (F - K)) 0 = Rmax (-1 * (F - K)) 0 + (F - K)) by (unfold Rmax; destruct (Rle_dec (1 * (F - K)) 0), (Rle_dec (-1 * (F - K)) 0); lra).
  destruct (undiscounted_outside erf_inv (P + (F - K)) F K T 1 Q1) as [A1 A2]. destruct (undiscounted_outside erf_inv P F K T (-1) Q2) as [B1 B2].
  destruct (Rltb_spec 1 0) as [N|_]; [lra|]. destruct (Rltb_spec (-1) 0) as [_|N]; [|lra].
  destruct (Rlt_le_dec P (Rmax (-1 * (F - K)) 0)) as [L|L]; [rewrite A1, B1 by lra; reflexivity|].
  destruct (Rle_lt_dec K P) as [M|M]; [rewrite A2, B2 by lra; reflexivity|].
  pose proof (undiscounted_normalised erf_inv (P + (F - K)) F K T 1 Q1 HF HK) as U1. pose proof (undiscounted_normalised erf_inv P F K T (-1) Q2 HF HK) as U2. cbv zeta in U1, U2.
  destruct (Rltb_spec 1 0) as [N|_]; [lra|]. destruct (Rltb_spec (-1) 0) as [_|N]; [|lra].
  destruct U1 as [_ U1]; [lra|]. destruct U2 as [_ U2]; [lra|]. rewrite U1, U2.
  replace (P + (F - K) - Rmax (1 * (F - K)) 0) with (P - Rmax (-1 * (F - K)) 0) by lra. reflexivity.
Qed.
Print Assumptions implied_volatility_parity.
Example implied_volatility_parity_case : 12 - 2 = 110 - 100 * exp (- 0 * 1).
Proof. replace (- 0 * 1) with 0 by ring. rewrite exp_0. lra. Qed.

(** Multiplying the price, the spot and the strike by the same factor changes
    nothing; neither does multiplying the expiry and dividing the rate, up to the
    square root of time. *)
Theorem implied_volatility_scaling : forall erf_inv price S K T r flag c, 0 < S -> 0 < K -> 0 < c ->
  implied_volatility erf_inv (c * price) (c * S) (c * K) T r flag = implied_volatility erf_inv price S K T r flag /\
  (0 < T -> implied_volatility erf_inv price S K (c * T) (r / c) flag = scale_fval (/ sqrt c) (implied_volatility erf_inv price S K T r flag)).
Proof.
  intros erf_inv price S K T r flag c HS HK Hc. pose proof (exp_pos (r * T)) as ER. set (F := S * exp (r * T)). assert (HF : 0 < F) by (apply Rmult_lt_0_compat; assumption). split.
  - unfold implied_volatility. replace (c * price * exp (r * T)) with (c * (price * exp (r * T))) by ring. replace (c * S * exp (r * T)) with (c * F) by (unfold F; ring). fold F.
    set (q := match flag with Call => 1 | Put => -1 end). set (P := price * exp (r * T)).
    assert (I : Rmax (if Rltb q 0 then c * K - c * F else c * F - c * K) 0 = c * Rmax (if Rltb q 0 then K - F else F - K) 0).
    { rewrite <- RmaxRmult by lra. rewrite Rmult_0_r. f_equal. destruct (Rltb q 0); ring. }
    unfold undiscounted_implied_volatility. rewrite I. set (i := Rmax (if Rltb q 0 then K - F else F - K) 0).
    assert (L1 : Rltb (c * P) (c * i) = Rltb P i). { destruct (Rltb_spec P i) as [L|L]; destruct (Rltb_spec (c * P) (c * i)) as [M|M]; try reflexivity; exfalso; [apply M, Rmult_lt_compat_l; assumption|apply L; apply Rmult_lt_reg_l in M; assumption]. }
    rewrite L1. destruct (Rltb P i); [reflexivity|]. set (m := if Rltb q 0 then K else F). replace (if Rltb q 0 then c * K else c * F) with (c * m) by (unfold m; destruct (Rltb q 0); reflexivity).
    assert (L2 : Rleb (c * m) (c * P) = Rleb m P). { destruct (Rleb_spec m P) as [L|L]; destruct (Rleb_spec (c * m) (c * P)) as [M|M]; try reflexivity; exfalso; [apply M, Rmult_le_compat_l; lra|apply L; apply Rmult_le_reg_l in M; assumption]. }
    rewrite L2. destruct (Rleb m P); [reflexivity|]. replace (c * F / (c * K)) with (F / K) by (field; lra). cbv zeta. f_equal. f_equal.
    replace (sqrt (c * F) * sqrt (c * K)) with (c * (sqrt F * sqrt K)). 2:{ rewrite !sqrt_mult by lra. rewrite <- (sqrt_sqrt c) at 1 by lra. ring. }
    pose proof (sqrt_lt_R0 F HF) as FS. pose proof (sqrt_lt_R0 K HK) as KS.
    destruct (Rltb 0 (q * ln (F / K))); [|field; lra]. replace (c * P - c * i) with (c * (P - i)) by ring. rewrite <- (Rmult_0_r c) at 1. rewrite RmaxRmult by lra. field. lra.
  - intros HT. unfold implied_volatility. replace (r / c * (c * T)) with (r * T) by (field; lra). unfold undiscounted_implied_volatility. cbv zeta.
    destruct (Rltb _ _); [reflexivity|]. destruct (Rleb _ _); [reflexivity|].
    match goal with |- scale_fval _ ?v = scale_fval _ (scale_fval _ ?w) => set (g := v) end. destruct g; cbn [scale_fval]; try reflexivity. f_equal. rewrite sqrt_mult by lra. rewrite Rinv_mult. ring.
Qed.
Print Assumptions implied_volatility_scaling.
Example implied_volatility_scaling_case : 0 < 100 /\ 0 < 90 /\ 0 < 2. Proof. lra. Qed.

(** ** An exact round trip *)
Lemma householder_step_zero h g : householder_step 0 h g = Fin 0.
Proof. unfold householder_step. rewrite !Rmult_0_l, Rplus_0_r. destruct (Reqb_spec 1 0) as [N|_]; [lra|reflexivity]. Qed.
(** Once an iterate reproduces the price, it is returned: each of the three
    steps is then zero. *)
Theorem exact_iterate_is_returned : forall x beta s s_left s_right n step, x <= 0 -> 0 < s -> f64_eps * s < f64_max -> 0 < beta < exp (x / 2) ->
  normalised_black_call x s = beta -> f64_eps < normalised_vega x s ->
  (step = lower_step x beta \/ step = middle_step x beta \/ step = upper_step x beta (exp (/ 2 * x))) ->
  householder_loop step x beta (S n) 0 0 s (- f64_max) 0 s_left s_right = Fin s.
Proof.
  intros x beta s sl sr n step Hx Hs Hm Hb E Hv Hstep. cbn [householder_loop].
  assert (FP : 0 < f64_eps) by (unfold f64_eps; apply Rinv_0_lt_compat, pow_lt; lra).
  assert (FM : 0 < f64_max) by (apply Rle_lt_trans with (f64_eps * s); [apply Rmult_le_pos; lra|exact Hm]).
  rewrite Rabs_left by lra. destruct (Rltb_spec (f64_eps * s) (- - f64_max)) as [_|N]; [|lra]. cbn [negb]. change (0 <? 0)%nat with false. cbn [andb].
  rewrite Rmult_0_r. destruct (Rltb_spec 0 0) as [N|_]; [lra|]. rewrite E. destruct (Rltb_spec beta beta) as [N|_]; [lra|]. cbn [andb negb].
  assert (ST : forall a b, step a b s beta (normalised_vega x s) = Fin 0).
  { intros a b. destruct Hstep as [->|[->| ->]].
    - unfold lower_step. destruct (Rleb_spec beta 0) as [N|_]; [lra|]. destruct (Rleb_spec (normalised_vega x s) 0) as [N|_]; [lra|]. cbn [orb].
      assert (B1 : beta < 1). { assert (exp (x / 2) <= 1); [|lra]. rewrite <- exp_0. destruct (Req_dec x 0) as [->|]; [right; f_equal; field|left; apply exp_increasing; lra]. }
      assert (LB : ln beta < 0) by (rewrite <- ln_1; apply ln_increasing; lra). destruct (Reqb_spec (ln beta) 0) as [N|_]; [lra|].
      replace ((ln beta - ln beta) * ln beta / ln beta / (normalised_vega x s / beta)) with 0 by (field; lra). apply householder_step_zero.
    - unfold middle_step. replace ((beta - beta) / normalised_vega x s) with 0 by (field; lra). apply householder_step_zero.
    - unfold upper_step. replace (exp (/ 2 * x)) with (exp (x / 2)) by (f_equal; field). destruct (Rleb_spec (exp (x / 2)) beta) as [N|_]; [lra|]. destruct (Rleb_spec (normalised_vega x s) f64_eps) as [N|_]; [lra|]. cbn [orb].
      replace ((exp (x / 2) - beta) / (exp (x / 2) - beta)) with 1 by (field; lra). rewrite ln_1. replace (- 0 / (normalised_vega x s / (exp (x / 2) - beta))) with 0 by (field; lra). apply householder_step_zero. }
  rewrite ST. replace (Rmax 0 (- / 2 * s)) with 0 by (symmetry; apply Rmax_left; lra). rewrite Rplus_0_r. destruct n as [|n]; cbn [householder_loop]; [reflexivity|].
  rewrite Rabs_R0. destruct (Rltb_spec (f64_eps * s) 0) as [N|_]; [|reflexivity]. assert (0 < f64_eps * s) by (apply Rmult_lt_0_compat; assumption). lra.
Qed.
Print Assumptions exact_iterate_is_returned.
Example exact_iterate_case : let s := 1 in 0 < nblack (-1) s < exp (-1 / 2) /\ normalised_black_call (-1) s = nblack (-1) s.
Proof.
  intros s. assert (Hs : 0 < s) by (unfold s; lra). split; [split; [now apply nblack_pos|now apply nblack_lt]|].
  rewrite black_otm by lra. apply otm_exact; unfold SMALL_T_EXPANSION_OF_NORMALIZED_BLACK_THRESHOLD, SIXTEENTH_ROOT_DBL_EPSILON, s; lra.
Qed.

(** The volatility at which the vega of the strike is largest, sigma^2 T = 2 |ln(F/K)|,
    is recovered exactly from the price it gives, for calls and puts on any strike
    at least about nine percent from the forward. *)
Theorem round_trip_centre : forall erf_inv S K T r flag, 0 < S -> 0 < K -> 0 < T ->
  let l := ln (S * exp (r * T) / K) in
  9 / 100 <= Rabs l <= 10 ^ 6 -> 
  let v := sqrt (2 * Rabs l / T) in
  f64_eps < nvega l (v * sqrt T) ->
  implied_volatility erf_inv (bsm_price flag S K T r v) S K T r flag = Fin v.
Proof.
  intros erf_inv S K T r flag HS HK HT l Hl v HV. pose proof (exp_pos (r * T)) as ER. set (F := S * exp (r * T)) in *. assert (HF : 0 < F) by (apply Rmult_lt_0_compat; assumption).
  pose proof (sqrt_lt_R0 F HF) as FS. pose proof (sqrt_lt_R0 K HK) as KS. pose proof (sqrt_lt_R0 T HT) as TS.
  assert (FK : 0 < sqrt F * sqrt K) by (apply Rmult_lt_0_compat; assumption). assert (F2 : sqrt F * sqrt F = F) by (apply sqrt_sqrt; lra). assert (K2 : sqrt K * sqrt K = K) by (apply sqrt_sqrt; lra).
  assert (Vp : 0 < v) by (apply sqrt_lt_R0, Rdiv_lt_0_compat; lra).
  set (x := - Rabs l). set (s := v * sqrt T).
  assert (Sv : s = sqrt (Rabs (2 * x))). { unfold s, v. rewrite <- sqrt_mult_alt by (left; apply Rdiv_lt_0_compat; lra). f_equal. unfold x. rewrite (Rabs_left (2 * - Rabs l)) by lra. field. lra. }
  assert (Sp : 0 < s) by (apply Rmult_lt_0_compat; assumption).
  assert (S2 : s * s = - 2 * x) by (rewrite Sv; rewrite sqrt_sqrt by apply Rabs_pos; unfold x; rewrite (Rabs_left (2 * - Rabs l)) by lra; ring).
  assert (SB : 421 / 1000 <= s). { destruct (Rle_lt_dec (421 / 1000) s) as [L|L]; [exact L|]. assert (s * s < 421 / 1000 * (421 / 1000)) by nra. unfold x in S2. lra. }
  set (q := match flag with Call => 1 | Put => -1 end). assert (Hq : q = 1 \/ q = -1) by (unfold q; destruct flag; tauto).
  set (price := bsm_price flag S K T r v).
  assert (P : price * exp (r * T) = sqrt F * sqrt K * nblack (q * l) s).
  { destruct (price_is_normalised_black S K T r v HS HK HT Vp) as [C Q]. fold F l s in C, Q. unfold price, bsm_price, q. destruct flag; [rewrite Rmult_1_l; exact C|]. replace (-1 * l) with (- l) by ring. exact Q. }
  (* the normalised price beta is the out of the money one *)
  set (i := Rmax (q * (F - K)) 0).
  assert (NI : i = sqrt F * sqrt K * (nblack (q * l) s - nblack x s)).
  { pose proof (exp_ln_half F K HF HK) as E1. pose proof (exp_ln_mhalf F K HF HK) as E2. fold l in E1, E2.
    assert (CALL : sqrt F * sqrt K * (exp (l / 2) - exp (- l / 2)) = F - K). { rewrite E1, E2. replace (sqrt F * sqrt K * (sqrt F / sqrt K - sqrt K / sqrt F)) with (sqrt F * sqrt F - sqrt K * sqrt K) by (field; lra). rewrite F2, K2. reflexivity. }
    assert (SG : (0 < l -> 0 < F - K) /\ (l < 0 -> F - K < 0)).
    { rewrite <- CALL. split; intros L; [apply Rmult_lt_0_compat; [exact FK|]; assert (exp (- l / 2) < exp (l / 2)) by (apply exp_increasing; lra); lra|].
      assert (exp (l / 2) < exp (- l / 2)) by (apply exp_increasing; lra). assert (0 < sqrt F * sqrt K * (exp (- l / 2) - exp (l / 2))) by (apply Rmult_lt_0_compat; lra). lra. }
    assert (LZ : l <> 0) by (intros Z; rewrite Z, Rabs_R0 in Hl; lra).
    unfold i, x. destruct (Rle_lt_dec l 0) as [N|N].
    - assert (LN : l < 0) by lra. rewrite Rabs_left by exact LN. rewrite Ropp_involutive. apply SG in LN. destruct Hq as [-> | ->].
      + rewrite Rmax_right by lra. rewrite Rmult_1_l. ring.
      + rewrite Rmax_left by lra. replace (-1 * l) with (- l) by ring. rewrite (nblack_sym (- l) s Sp). rewrite Ropp_involutive. replace (- l / 2) with (- l / 2) by reflexivity.
        replace (-1 * (F - K)) with (- (F - K)) by ring. rewrite <- CALL. ring.
    - rewrite Rabs_right by lra. apply SG in N. destruct Hq as [-> | ->].
      + rewrite Rmax_left by lra. rewrite !Rmult_1_l. rewrite (nblack_sym l s Sp). rewrite <- CALL. ring.
      + rewrite Rmax_right by lra. replace (-1 * l) with (- l) by ring. ring. }
  set (beta := nblack x s). assert (BB : 0 < beta < exp (x / 2)) by (split; [apply nblack_pos|apply nblack_lt]; exact Sp).
  assert (EB : (price * exp (r * T) - i) / (sqrt F * sqrt K) = beta) by (rewrite P, NI; fold beta; field; lra).
  assert (CAPS : i <= price * exp (r * T) < (if Rltb q 0 then K else F)).
  { split; [rewrite P, NI; fold beta; nra|]. rewrite P. apply Rlt_le_trans with (sqrt F * sqrt K * exp (q * l / 2)); [apply Rmult_lt_compat_l; [exact FK|apply nblack_lt, Sp]|].
    pose proof (exp_ln_half F K HF HK) as E1. pose proof (exp_ln_mhalf F K HF HK) as E2. fold l in E1, E2. destruct Hq as [-> | ->]; match goal with |- context [Rltb ?a 0] => destruct (Rltb_spec a 0); try lra end.
    - rewrite Rmult_1_l, E1. right. rewrite <- F2 at 3. field. lra.
    - replace (-1 * l / 2) with (- l / 2) by (field). rewrite E2. right. rewrite <- K2 at 3. field. lra. }
  unfold implied_volatility. fold F q price. pose proof (undiscounted_normalised erf_inv (price * exp (r * T)) F K T q Hq HF HK) as U. cbv zeta in U. fold i in U. specialize (U CAPS). destruct U as [_ U]. fold l x in U. rewrite U, EB. clear U.
  destruct (Rleb_spec beta 0) as [N|_]; [lra|].
  (* the segment *)
  assert (XN : x < 0) by (unfold x; lra). pose proof (centre x XN ltac:(unfold x; lra)) as C. cbv zeta in C. rewrite <- Sv in C. destruct C as (_ & _ & VE & VB & _ & BM & _ & _).
  assert (BC : normalised_black_call x s = beta).
  { rewrite black_otm by lra. apply otm_exact; [lra|exact Sp|unfold SMALL_T_EXPANSION_OF_NORMALIZED_BLACK_THRESHOLD, SIXTEENTH_ROOT_DBL_EPSILON; lra|lra]. }
  rewrite BC in *. assert (NV : nvega x s = nvega l s) by (unfold nvega, x; do 3 f_equal; f_equal; replace (- Rabs l / s) with (- (Rabs l / s)) by (field; lra); rewrite <- Rsqr_pow2, <- Rsqr_neg; unfold Rdiv; rewrite Rsqr_mult, <- Rsqr_abs, <- Rsqr_mult, Rsqr_pow2; reflexivity).
  assert (VL : f64_eps < normalised_vega x s) by (rewrite VE, NV; exact HV).
  assert (SEG : choose_segment erf_inv beta x = Segment (middle_step x beta) s s (s + (exp (x / 2) - beta) / normalised_vega x s)).
  { unfold choose_segment. rewrite <- Sv, BC. replace (exp (/ 2 * x)) with (exp (x / 2)) by (f_equal; field). cbv zeta. destruct (Rltb_spec beta beta) as [N|_]; [lra|].
    destruct (Rltb_spec f64_eps (normalised_vega x s)) as [_|N]; [|lra]. set (su := s + (exp (x / 2) - beta) / normalised_vega x s).
    assert (SU : s < su). { unfold su. assert (0 < (exp (x / 2) - beta) / normalised_vega x s) by (apply Rdiv_lt_0_compat; lra). lra. }
    assert (BU : normalised_black_call x su = nblack x su). { rewrite black_otm by lra. apply otm_exact; [lra|lra|unfold SMALL_T_EXPANSION_OF_NORMALIZED_BLACK_THRESHOLD, SIXTEENTH_ROOT_DBL_EPSILON; lra|]. assert (s * s < su * su) by nra. lra. }
    rewrite BU. pose proof (nblack_increasing x s su Sp SU) as INC. fold beta in INC. destruct (Rleb_spec beta (nblack x su)) as [_|N]; [|lra].
    unfold upper_middle_segment. f_equal. apply cubic_nodes. exact INC. }
  rewrite SEG. cbn [sg_step sg_s sg_left sg_right].
  rewrite exact_iterate_is_returned; try assumption; try lra; [|  |tauto].
  - cbn [scale_fval]. f_equal. unfold s. field. lra.
  - assert (s <= 1500) by (unfold x in S2; nra). unfold f64_eps, f64_max. assert (/ 2 ^ 52 * s < 1). { assert (/ 2 ^ 52 < / 10 ^ 6) by (apply Rinv_lt_contravar; lra). assert (/ 10 ^ 6 * 1500 < 1) by lra. nra. }
    assert (1 < 2 ^ 1024 - 2 ^ 971); [|lra]. replace 1024%nat with (971 + 53)%nat by reflexivity. rewrite pow_add. assert (1 < 2 ^ 971) by (apply Rlt_pow_R1; [lra|lia]). assert (2 <= 2 ^ 53) by lra. nra.
Qed.
Print Assumptions round_trip_centre.
Example round_trip_centre_case : 9 / 100 <= Rabs (ln (exp 1 * exp (0 * 1) / 1)) <= 10 ^ 6 /\ f64_eps < nvega 1 (sqrt (2 * 1 / 1) * sqrt 1).
Proof.
  split; [rewrite Rmult_0_l, exp_0; replace (exp 1 * 1 / 1) with (exp 1) by field; rewrite ln_exp, Rabs_R1; lra|].
  rewrite sqrt_1, Rmult_1_r. replace (2 * 1 / 1) with 2 by field. unfold nvega. 
  replace ((1 / sqrt 2) ^ 2 + (sqrt 2 / 2) ^ 2) with 1.
  2:{ pose proof sqrt2_pos. assert (sqrt 2 ^ 2 = 2) by (apply pow2_sqrt; lra). replace ((1 / sqrt 2) ^ 2) with (1 / (sqrt 2 ^ 2)) by (field; lra). replace ((sqrt 2 / 2) ^ 2) with (sqrt 2 ^ 2 / 4) by field. rewrite H0. field. }
  assert (1 / 4 < / sqrt (2 * PI)).
  { assert (sqrt (2 * PI) < 4). { rewrite <- (sqrt_pow2 4) by lra. apply sqrt_lt_1_alt. pose proof PI_RGT_0. pose proof PI_4. lra. }
    unfold Rdiv. rewrite Rmult_1_l. apply Rinv_lt_contravar; [|assumption]. apply Rmult_lt_0_compat; [apply sqrt_2PI_pos|lra]. }
  assert (1 / 2 <= exp (- / 2 * 1)) by (pose proof (exp_ineq1_le (- / 2 * 1)); lra).
  unfold f64_eps. assert (/ 2 ^ 52 < 1 / 8) by lra. nra.
Qed.

(** ** BlackScholesMerton::implied_volatility *)
(** The round trip fails for every option on a future (carry 0) that is at the
    money with r T >= ln 2: the price of the option itself is refused. *)
Theorem carry_refuted : forall erf_inv s v r t, 0 < s -> 0 < v -> 0 < t -> ln 2 <= r * t ->
  let o := BsmOpt 0 s s v r t Call in
  0 < o_price o /\ o_implied_volatility erf_inv o (o_price o) = NegInf.
Proof.
  intros erf_inv s v r t Hs Hv Ht Hr o. pose proof (sqrt_lt_R0 t Ht) as TS.
  assert (E2 : 2 <= exp (r * t)). { rewrite <- (exp_ln 2) by lra. destruct Hr as [L|L]; [left; now apply exp_increasing|right; now rewrite L]. }
  assert (EI : exp (- r * t) * exp (r * t) = 1) by (rewrite <- exp_plus; replace (- r * t + r * t) with 0 by ring; apply exp_0). pose proof (exp_pos (- r * t)) as EN.
  set (u := v * sqrt t / 2). assert (Up : 0 < u) by (unfold u; assert (0 < v * sqrt t) by (apply Rmult_lt_0_compat; assumption); lra).
  assert (D1 : o_d1 o = u).
  { unfold o_d1, o. cbn. replace (s / s) with 1 by (field; lra). rewrite ln_1. unfold u. assert (T2 : t = sqrt t * sqrt t) by (rewrite sqrt_sqrt; lra). set (w := sqrt t) in *. clearbody w. subst t. field. lra. }
  assert (D2 : o_d2 o = - u) by (unfold o_d2; rewrite D1; unfold u, o; cbn; field).
  assert (PR : o_price o = exp (- r * t) * (s * (ncdf u - ncdf (- u)))).
  { unfold o_price, o at 1. cbn [o_tf o_s o_b o_r o_t o_k]. rewrite D1, D2. cbn [o_s o_b o_r o_t o_k o]. replace ((0 - r) * t) with (- r * t) by ring. ring. }
  pose proof (ncdf_bound u). pose proof (ncdf_bound (- u)). assert (ncdf (- u) < ncdf u) by (apply ncdf_increasing; lra). split.
  - rewrite PR. repeat apply Rmult_lt_0_compat; lra.
  - unfold o_implied_volatility, implied_volatility. cbn [o_s o_k o_t o_r o_tf o]. destruct (undiscounted_outside erf_inv (o_price o * exp (r * t)) (s * exp (r * t)) s t 1 ltac:(lra)) as [O _]. apply O.
    rewrite PR. replace (exp (- r * t) * (s * (ncdf u - ncdf (- u))) * exp (r * t)) with (exp (- r * t) * exp (r * t) * (s * (ncdf u - ncdf (- u)))) by ring. rewrite EI, Rmult_1_l, Rmult_1_l.
    eapply Rlt_le_trans; [|apply Rmax_l]. nra.
Qed.
Print Assumptions carry_refuted.
Example carry_refuted_case : ln 2 <= 1 * 1.
Proof. rewrite Rmult_1_r. rewrite <- (ln_exp 1). apply Rcomplements.ln_le; [lra|]. pose proof (exp_ineq1 1 ltac:(lra)). lra. Qed.
