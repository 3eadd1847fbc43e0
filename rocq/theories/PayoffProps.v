(** C31: payoff identities; C32: Monte-Carlo prices; C58: Longstaff-Schwartz. *)
From Coq Require Import Reals List Bool ZArith Lra Lia Psatz Permutation.
From Verif Require Import Res InterpModel InterpProofs RList StatModel StatProps PayoffModel.
Import ListNotations.
Open Scope R_scope.

(** ** C31 *)

Ltac mm := unfold Rmax, Rmin in *; repeat match goal with |- context [Rle_dec ?a ?b] => destruct (Rle_dec a b) | H : context [Rle_dec ?a ?b] |- _ => destruct (Rle_dec a b) end.

Theorem vanilla_identities : forall k s s',
  vanilla_payoff Call k s - vanilla_payoff Put k s = s - k /\
  (forall tf, 0 <= vanilla_payoff tf k s) /\
  (vanilla_payoff Call k s = 0 \/ vanilla_payoff Put k s = 0) /\
  (* monotone, 1-Lipschitz *)
  (s <= s' -> 0 <= vanilla_payoff Call k s' - vanilla_payoff Call k s <= s' - s) /\
  (s <= s' -> 0 <= vanilla_payoff Put k s - vanilla_payoff Put k s' <= s' - s) /\
  (* convex *)
  (forall tf w, 0 <= w <= 1 -> vanilla_payoff tf k (w * s + (1 - w) * s') <= w * vanilla_payoff tf k s + (1 - w) * vanilla_payoff tf k s').
Proof.
  intros k s s'. unfold vanilla_payoff. split; [mm; lra|]. split; [intros []; mm; lra|]. split; [mm; lra|].
  split; [mm; lra|]. split; [mm; lra|]. intros [] w W; mm; nra.
Qed.
Print Assumptions vanilla_identities.
Example vanilla_case : vanilla_payoff Call 100 110 = 10 /\ vanilla_payoff Put 100 110 = 0.
Proof. unfold vanilla_payoff. mm; lra. Qed.

Lemma last_in path s : last_opt path = Some s -> In s path.
Proof. apply nth_error_In. Qed.
Lemma last_nonempty path : path <> [] -> exists s, last_opt path = Some s.
Proof.
  intros H. unfold last_opt. destruct (nth_error path (length path - 1)) as [s|] eqn:E; [eauto|].
  apply nth_error_None in E. destruct path; [congruence|simpl in E; lia].
Qed.

(** knock-in plus knock-out is vanilla, each leg is non-negative, and which leg
    pays is decided by the path touching the barrier *)
Theorem barrier_identities : forall tf b k rebate path terminal, last_opt path = Some terminal ->
  exists ui uo di d_o,
    barrier_payoff UpAndIn tf b k rebate path = Ret ui /\ barrier_payoff UpAndOut tf b k rebate path = Ret uo /\
    barrier_payoff DownAndIn tf b k rebate path = Ret di /\ barrier_payoff DownAndOut tf b k rebate path = Ret d_o /\
    ui + uo = vanilla_payoff tf k terminal /\ di + d_o = vanilla_payoff tf k terminal /\
    0 <= ui /\ 0 <= uo /\ 0 <= di /\ 0 <= d_o /\
    ((exists x, In x path /\ b <= x) -> uo = 0) /\ ((forall x, In x path -> x < b) -> ui = 0) /\
    ((exists x, In x path /\ x <= b) -> d_o = 0) /\ ((forall x, In x path -> b < x) -> di = 0).
Proof.
  intros tf b k rebate path terminal L. unfold barrier_payoff. rewrite L. cbn [unwrap bind].
  do 4 eexists. split; [reflexivity|]. split; [reflexivity|]. split; [reflexivity|]. split; [reflexivity|].
  fold (vanilla_payoff tf k terminal). destruct (vanilla_identities k terminal 0) as (_ & P & _). specialize (P tf).
  set (v := vanilla_payoff tf k terminal) in *.
  split; [destruct (existsb _ path); lra|]. split; [destruct (existsb (fun x => Rleb x b) path); lra|].
  do 4 (split; [destruct (existsb _ path); lra|]).
  assert (Ab : (exists x, In x path /\ b <= x) <-> existsb (fun x => Rleb b x) path = true).
  { rewrite existsb_exists. split; intros (x & H1 & H2); exists x; (split; [exact H1|]); [destruct (Rleb_spec b x); [reflexivity|contradiction]|destruct (Rleb_spec b x); [assumption|discriminate]]. }
  assert (Be : (exists x, In x path /\ x <= b) <-> existsb (fun x => Rleb x b) path = true).
  { rewrite existsb_exists. split; intros (x & H1 & H2); exists x; (split; [exact H1|]); [destruct (Rleb_spec x b); [reflexivity|contradiction]|destruct (Rleb_spec x b); [assumption|discriminate]]. }
  split; [intros H; rewrite (proj1 Ab H); reflexivity|]. split.
  - intros H. destruct (existsb (fun x => Rleb b x) path) eqn:E; [|reflexivity]. destruct (proj2 Ab eq_refl) as (x & I & B). specialize (H x I). lra.
  - split; [intros H; rewrite (proj1 Be H); reflexivity|].
    intros H. destruct (existsb (fun x => Rleb x b) path) eqn:E; [|reflexivity]. destruct (proj2 Be eq_refl) as (x & I & B). specialize (H x I). lra.
Qed.
Print Assumptions barrier_identities.
Example barrier_case : last_opt [100; 130; 110] = Some 110 /\ barrier_payoff UpAndOut Call 120 100 None [100; 130; 110] = Ret 0.
Proof.
  split; [reflexivity|]. unfold barrier_payoff. cbn [last_opt length nth_error Nat.sub unwrap bind existsb].
  destruct (Rleb_spec 120 100); [lra|]. destruct (Rleb_spec 120 130); [reflexivity|lra].
Qed.
(** the rebate of a knocked-out option is never paid *)
Theorem barrier_rebate_refuted : exists path r, 0 < r /\ In 130 path /\
  barrier_payoff UpAndOut Call 120 100 (Some r) path = Ret 0.
Proof. exists [100; 130; 110], 5. split; [lra|]. split; [simpl; tauto|]. exact (proj2 barrier_case). Qed.
Print Assumptions barrier_rebate_refuted.

(** cash-or-nothing pays the strike, so the binaries replicate the vanilla *)
Theorem binary_identities : forall k s,
  binary_payoff AssetOrNothing Call k s - binary_payoff CashOrNothing Call k s = vanilla_payoff Call k s /\
  binary_payoff CashOrNothing Put k s - binary_payoff AssetOrNothing Put k s = vanilla_payoff Put k s /\
  (s <> k -> binary_payoff CashOrNothing Call k s + binary_payoff CashOrNothing Put k s = k) /\
  (s <> k -> binary_payoff AssetOrNothing Call k s + binary_payoff AssetOrNothing Put k s = s) /\
  (forall bt tf, binary_payoff bt tf k k = 0).
Proof.
  intros k s. unfold binary_payoff, vanilla_payoff. 
  split; [destruct (Rltb_spec k s); mm; lra|]. split; [destruct (Rltb_spec s k); mm; lra|].
  split; [intros; destruct (Rltb_spec k s), (Rltb_spec s k); lra|]. split; [intros; destruct (Rltb_spec k s), (Rltb_spec s k); lra|].
  intros [] []; destruct (Rltb_spec k k); lra.
Qed.
Print Assumptions binary_identities.

(** lookbacks dominate the payoff of any other exercise time, and attain it *)
Theorem lookback_identities : forall path terminal k, last_opt path = Some terminal ->
  exists fc fp c p, 
    lookback_payoff (Some Floating) Call None path = Ret fc /\ lookback_payoff (Some Floating) Put None path = Ret fp /\
    lookback_payoff (Some Fixed) Call (Some k) path = Ret c /\ lookback_payoff (Some Fixed) Put (Some k) path = Ret p /\
    lookback_payoff None Call None path = Ret fc /\ lookback_payoff None Put None path = Ret fp /\
    (forall s, In s path -> terminal - s <= fc) /\ (exists s, In s path /\ terminal - s = fc) /\
    (forall s, In s path -> s - terminal <= fp) /\ (exists s, In s path /\ s - terminal = fp) /\
    (forall s, In s path -> vanilla_payoff Call k s <= c) /\ (exists s, In s path /\ vanilla_payoff Call k s = c) /\
    (forall s, In s path -> vanilla_payoff Put k s <= p) /\ (exists s, In s path /\ vanilla_payoff Put k s = p) /\
    (forall r, range path = Ret r -> fc + fp = r).
Proof.
  intros path terminal k L. pose proof (last_in _ _ L) as I.
  assert (NE : path <> []) by (intros ->; destruct I).
  destruct (minmax_laws path NE) as (a & b & Ea & Eb & Ia & Ib & B & R & _).
  unfold lookback_payoff. rewrite L, Ea, Eb. cbn [unwrap bind]. destruct (B _ I) as [B1 B2].
  do 4 eexists. do 6 (split; [reflexivity|]).
  split; [intros s Hs; destruct (B s Hs); mm; lra|]. split; [exists a; split; [exact Ia|mm; lra]|].
  split; [intros s Hs; destruct (B s Hs); mm; lra|]. split; [exists b; split; [exact Ib|mm; lra]|].
  split; [intros s Hs; destruct (B s Hs); unfold vanilla_payoff; mm; lra|]. split; [exists b; split; [exact Ib|reflexivity]|].
  split; [intros s Hs; destruct (B s Hs); unfold vanilla_payoff; mm; lra|]. split; [exists a; split; [exact Ia|reflexivity]|].
  intros r Hr. rewrite R in Hr. injection Hr as <-. mm; lra.
Qed.
Print Assumptions lookback_identities.
Example lookback_case : last_opt [100; 130; 110] = Some 110.
Proof. reflexivity. Qed.
(** a fixed-strike lookback without a strike panics; an empty path panics *)
Theorem lookback_panics : forall sf tf k path,
  lookback_payoff (Some Fixed) tf None path = Panic /\ lookback_payoff sf tf k [] = Panic.
Proof.
  intros sf tf k path. split; [|reflexivity]. unfold lookback_payoff. destruct (last_opt path); [|reflexivity]. cbn [unwrap bind].
  destruct path; [reflexivity|]. reflexivity.
Qed.
Print Assumptions lookback_panics.

Theorem asian_identities : forall path terminal k, last_opt path = Some terminal ->
  exists avg_ c p fc fp,
    arithmetic_mean path = Ret avg_ /\
    asian_payoff ArithmeticDiscrete (Some Fixed) Call (Some k) path = Ret c /\
    asian_payoff ArithmeticDiscrete (Some Fixed) Put (Some k) path = Ret p /\
    asian_payoff ArithmeticDiscrete (Some Floating) Call (Some k) path = Ret fc /\
    asian_payoff ArithmeticDiscrete (Some Floating) Put (Some k) path = Ret fp /\
    c - p = avg_ - k /\ fc - fp = terminal - avg_ /\ 0 <= c /\ 0 <= p /\ 0 <= fc /\ 0 <= fp /\
    (* never worth more than the best single date *)
    (exists s, In s path /\ c <= vanilla_payoff Call k s) /\ (exists s, In s path /\ p <= vanilla_payoff Put k s) /\
    (* positive prices: the geometric call is dominated by the arithmetic call, the put dominates *)
    ((forall s, In s path -> 0 < s) ->
      exists gc gp, asian_payoff GeometricDiscrete (Some Fixed) Call (Some k) path = Ret gc /\
        asian_payoff GeometricDiscrete (Some Fixed) Put (Some k) path = Ret gp /\ 0 <= gc <= c /\ p <= gp).
Proof.
  intros path terminal k L. pose proof (last_in _ _ L) as I.
  assert (NE : path <> []) by (intros ->; destruct I).
  destruct (minmax_laws path NE) as (a & b & _ & _ & Ia & Ib & B & _).
  exists (avg path), (Rmax (avg path - k) 0), (Rmax (k - avg path) 0), (Rmax (terminal - avg path) 0), (Rmax (avg path - terminal) 0).
  split; [apply mean_avg; exact NE|]. unfold asian_payoff. rewrite L. cbn [unwrap bind]. fold (avg path).
  do 4 (split; [reflexivity|]).
  destruct (mean_laws path path 0 0 NE) as [_ (m & Em & _ & _ & Bm & _)]. rewrite mean_avg in Em by exact NE. injection Em as <-.
  destruct (Bm a b B) as [Ma Mb].
  split; [mm; lra|]. split; [mm; lra|]. do 4 (split; [mm; lra|]).
  split; [exists b; split; [exact Ib|unfold vanilla_payoff; mm; lra]|]. split; [exists a; split; [exact Ia|unfold vanilla_payoff; mm; lra]|].
  intros P. destruct (means_ordered path NE P) as (h & g & ar & _ & Eg & Ear & _ & _ & Ga & _).
  unfold arithmetic_mean in Ear. rewrite nonempty_true in Ear by exact NE. injection Ear as <-.
  unfold geometric_mean in Eg. rewrite nonempty_true in Eg by exact NE. cbn [assertb] in Eg.
  assert (Eg' : nth_root (rprod path) (length path) = Some g) by congruence. rewrite Eg'. fold (avg path) in Ga.
  do 2 eexists. split; [reflexivity|]. split; [reflexivity|]. mm; lra.
Qed.
Print Assumptions asian_identities.
Example asian_case : last_opt [100; 130; 110] = Some 110 /\ forall s, In s [100; 130; 110] -> 0 < s.
Proof. split; [reflexivity|]. intros s [<-|[<-|[<-|[]]]]; lra. Qed.
(** unset strike flag, continuous averaging and empty paths panic; a missing
    fixed strike is silently taken as zero *)
Theorem asian_edge_cases : forall avm sf tf k path,
  asian_payoff avm None tf k path = Panic /\ 
  asian_payoff ArithmeticContinuous sf tf k path = Panic /\ asian_payoff GeometricContinuous sf tf k path = Panic /\
  asian_payoff avm sf tf k [] = Panic /\
  asian_payoff avm sf tf None path = asian_payoff avm sf tf (Some 0) path.
Proof.
  intros avm sf tf k path. unfold asian_payoff. destruct (last_opt path); cbn [unwrap bind]; repeat split; try reflexivity.
  destruct avm; reflexivity.
Qed.
Print Assumptions asian_edge_cases.

Theorem power_identities : forall tf k p cap s, 0 < s ->
  exists x, power_payoff tf k p s = Some x /\ 0 <= x /\ x = vanilla_payoff tf k (Rpower s p) /\
    power_payoff tf k 1 s = Some (vanilla_payoff tf k s) /\
    (0 <= cap -> exists y, capped_power_payoff tf k p cap s = Some y /\ 0 <= y <= cap /\ y <= x /\ (x <= cap -> y = x)) /\
    (0 < k -> power_contract_payoff k p s = Some (Rpower (s / k) p) /\ power_contract_payoff k p k = Some 1) /\
    powered_payoff tf k 1 s = Some (vanilla_payoff tf k s) /\
    (0 < p -> exists z, powered_payoff tf k p s = Some z /\ 0 <= z /\ (z = 0 <-> vanilla_payoff tf k s = 0) /\
      (0 < vanilla_payoff tf k s -> z = Rpower (vanilla_payoff tf k s) p)).
Proof.
  intros tf k p cap s S0. unfold capped_power_payoff, power_payoff, fpow.
  destruct (Rltb_spec 0 s) as [_|]; [|lra]. cbn [option_map].
  eexists. split; [reflexivity|]. split; [destruct tf; mm; lra|]. split; [destruct tf; reflexivity|].
  split; [rewrite Rpower_1 by exact S0; destruct tf; reflexivity|].
  split; [intros C; eexists; split; [reflexivity|destruct tf; mm; lra]|].
  split.
  { intros K. unfold power_contract_payoff, fdiv, fpow. destruct (Reqb_spec k 0); [lra|].
    assert (Q : 0 < s / k) by (apply Rdiv_lt_0_compat; assumption). destruct (Rltb_spec 0 (s / k)); [|lra].
    replace (k / k) with 1 by (field; lra). destruct (Rltb_spec 0 1); [|lra]. split; [reflexivity|]. f_equal.
    unfold Rpower. rewrite ln_1, Rmult_0_r. apply exp_0. }
  unfold powered_payoff. fold (vanilla_payoff tf k s). destruct (vanilla_identities k s 0) as (_ & P & _). specialize (P tf). unfold fpow.
  split.
  - destruct (Rltb_spec 0 (vanilla_payoff tf k s)) as [V|V]; [rewrite Rpower_1 by exact V; reflexivity|].
    destruct (Reqb_spec (vanilla_payoff tf k s) 0) as [E|]; [|lra]. destruct (Rltb_spec 0 1); [|lra]. rewrite E. reflexivity.
  - intros Pp. destruct (Rltb_spec 0 (vanilla_payoff tf k s)) as [V|V].
    + assert (X : 0 < Rpower (vanilla_payoff tf k s) p) by (unfold Rpower; apply exp_pos).
      eexists. split; [reflexivity|]. split; [lra|]. split; [split; intros; lra|reflexivity].
    + destruct (Reqb_spec (vanilla_payoff tf k s) 0) as [E|]; [|lra]. destruct (Rltb_spec 0 p); [|lra].
      eexists. split; [reflexivity|]. split; [lra|]. split; [split; intros; [exact E|reflexivity]|intros; lra].
Qed.
Print Assumptions power_identities.
Example power_case : 0 < 100.
Proof. lra. Qed.

Theorem log_identities : forall k s, 0 < k -> 0 < s ->
  exists m u o uk, log_moneyness_payoff k s = Some m /\ log_underlying_payoff s = Some u /\ log_option_payoff k s = Some o /\
    log_underlying_payoff k = Some uk /\
    m = u - uk /\ o = Rmax m 0 /\ 0 <= o /\ (0 < o <-> k < s) /\ (k <= s -> o <= s / k - 1).
Proof.
  intros k s K S. unfold log_moneyness_payoff, log_underlying_payoff, log_option_payoff, fdiv, fln.
  destruct (Reqb_spec k 0); [lra|]. assert (Q : 0 < s / k) by (apply Rdiv_lt_0_compat; assumption).
  destruct (Rltb_spec 0 (s / k)); [|lra]. destruct (Rltb_spec 0 s); [|lra]. destruct (Rltb_spec 0 k); [|lra].
  do 4 eexists. do 4 (split; [reflexivity|]). rewrite ln_quot by assumption.
  split; [reflexivity|]. split; [reflexivity|]. split; [mm; lra|]. 
  assert (Up : k < s -> ln k < ln s) by (intros; apply ln_increasing; lra).
  assert (Dn : s <= k -> ln s <= ln k) by (intros [X| ->]; [left; apply ln_increasing; lra|lra]).
  split.
  - split; [intros H; destruct (Rlt_or_le k s) as [X|X]; [exact X|specialize (Dn X); mm; lra]|intros H; specialize (Up H); mm; lra].
  - intros H. assert (ln s - ln k <= s / k - 1) by (rewrite <- ln_quot by assumption; apply ln_le_minus_1, Q).
    assert (1 <= s / k) by (apply Rmult_le_reg_r with k; [exact K|]; unfold Rdiv; rewrite Rmult_assoc, Rinv_l by lra; lra). mm; lra.
Qed.
Print Assumptions log_identities.
Example log_case : 0 < 100 /\ 0 < 110.
Proof. lra. Qed.

(** a supershare pays S/K1 inside the band; a partition of [K1, K3] at K2 pays
    the same units except that S = K2 is counted in both bands *)
Theorem supershare_identities : forall k1 k2 s, 0 < k1 -> k1 <= k2 ->
  exists x, supershare_payoff k1 k2 s = Some x /\ 0 <= x /\
    (k1 <= s <= k2 -> x * k1 = s /\ 1 <= x) /\ (~ (k1 <= s <= k2) -> x = 0) /\
    (forall k3 y z, k2 <= k3 -> supershare_payoff k2 k3 s = Some y -> supershare_payoff k1 k3 s = Some z ->
       (s <> k2 -> k1 * x + k2 * y = k1 * z) /\ (s = k2 -> k1 * x + k2 * y = 2 * (k1 * z))).
Proof.
  intros k1 k2 s K1 K2. unfold supershare_payoff, fdiv.
  destruct (Reqb_spec k1 0); [lra|]. destruct (Reqb_spec k2 0); [lra|].
  assert (Q : forall k, 0 < k -> s / k * k = s) by (intros; field; lra).
  assert (G1 : k1 <= s -> 1 <= s / k1) by (intros; apply Rmult_le_reg_r with k1; [exact K1|]; rewrite Q; lra).
  pose proof (Q k1 K1). pose proof (Q k2 ltac:(lra)).
  destruct (Rleb_spec k1 s) as [A|A]; [destruct (Rleb_spec s k2) as [B|B]|]; cbn [andb]; eexists; (split; [reflexivity|]).
  - specialize (G1 A). split; [lra|]. split; [intros; lra|]. split; [intros X; exfalso; apply X; lra|].
    intros k3 y z K3 Hy Hz. destruct (Rleb_spec s k3) as [D|D]; [|lra]. rewrite andb_true_r in Hy. cbn [andb] in Hz.
    destruct (Rleb_spec k2 s); injection Hy as <-; injection Hz as <-; split; intros; lra.
  - split; [lra|]. split; [intros; lra|]. split; [reflexivity|].
    intros k3 y z K3 Hy Hz. destruct (Rleb_spec k2 s); [|lra]. cbn [andb] in Hy, Hz. destruct (Rleb_spec s k3); injection Hy as <-; injection Hz as <-; split; intros; lra.
  - split; [lra|]. split; [intros; lra|]. split; [reflexivity|].
    intros k3 y z K3 Hy Hz. destruct (Rleb_spec k2 s); [lra|]. cbn [andb] in Hy, Hz. injection Hy as <-; injection Hz as <-; split; intros; lra.
Qed.
Print Assumptions supershare_identities.
Example supershare_case : 0 < 90 /\ 90 <= 110.
Proof. lra. Qed.

(** ** C32: Monte-Carlo *)

Lemma sum_payoffs_total payoff paths vals : 
  (forall i p, nth_error paths i = Some p -> exists x, nth_error vals i = Some x /\ payoff p = Ret x) -> length vals = length paths ->
  sum_payoffs payoff paths = Ret (rsum vals).
Proof.
  revert vals. induction paths as [|p ps IH]; intros [|x xs] H L; try discriminate; [reflexivity|].
  cbn [sum_payoffs]. destruct (H 0%nat p eq_refl) as (x' & E & P). injection E as <-. rewrite P. cbn [bind].
  rewrite (IH xs); [reflexivity| |injection L; auto]. intros i q Hq. apply (H (S i) q Hq).
Qed.
Lemma sum_payoffs_map f paths : sum_payoffs (fun p => Ret (f p)) paths = Ret (rsum (map f paths)).
Proof. induction paths as [|p ps IH]; [reflexivity|]. cbn [sum_payoffs bind]. rewrite IH. reflexivity. Qed.
Lemma sum_payoffs_ext g f paths : (forall p, In p paths -> g p = Ret (f p)) -> sum_payoffs g paths = Ret (rsum (map f paths)).
Proof.
  induction paths as [|p ps IH]; intros H; [reflexivity|]. cbn [sum_payoffs]. rewrite (H p) by (left; reflexivity). cbn [bind].
  rewrite IH; [reflexivity|]. intros q Hq. apply H. right. exact Hq.
Qed.

Theorem mc_average : forall payoff (f : list R -> R) paths t0 tn rate, paths <> [] ->
  (forall p, In p paths -> payoff p = Ret (f p)) ->
  price_mc payoff paths t0 tn rate = Ret (Some (exp (- (rate * (tn - t0))) * (rsum (map f paths) / INR (length paths)))) /\
  (forall lo hi, (forall p, In p paths -> lo <= f p <= hi) ->
     forall x, price_mc payoff paths t0 tn rate = Ret (Some x) -> exp (- (rate * (tn - t0))) * lo <= x <= exp (- (rate * (tn - t0))) * hi).
Proof.
  intros payoff f paths t0 tn rate NE H. pose proof (INR_len_pos paths NE) as N0.
  assert (E : price_mc payoff paths t0 tn rate = Ret (Some (exp (- (rate * (tn - t0))) * (rsum (map f paths) / INR (length paths))))).
  { unfold price_mc. rewrite (sum_payoffs_ext payoff f paths H). cbn [bind]. unfold fdiv. destruct (Reqb_spec (INR (length paths)) 0); [lra|].
    do 2 f_equal. replace (- rate * (tn - t0)) with (- (rate * (tn - t0))) by ring. unfold Rdiv. ring. }
  split; [exact E|]. intros lo hi B x Hx. rewrite E in Hx. injection Hx as <-.
  assert (NE' : map f paths <> []) by (destruct paths; [congruence|discriminate]).
  destruct (mean_laws (map f paths) (map f paths) 0 0 NE') as [_ (m & Em & _ & _ & Bm & _)]. rewrite mean_avg in Em by exact NE'. injection Em as <-.
  assert (X : lo <= avg (map f paths) <= hi).
  { apply Bm. intros y Hy. apply in_map_iff in Hy as (p & <- & Hp). apply B, Hp. }
  unfold avg, len in X. rewrite map_length in X. pose proof (exp_pos (- (rate * (tn - t0)))). nra.
Qed.
Print Assumptions mc_average.
Example mc_case : [[100; 110]; [100; 95]] <> [] /\ forall p, In p [[100; 110]; [100; 95]] -> Ret (vanilla_payoff Call 100 (path_independent p)) = Ret (vanilla_payoff Call 100 (path_independent p)).
Proof. split; [discriminate|]. reflexivity. Qed.

(** linear and monotone in the payoff, on the same paths *)
Theorem mc_linear_monotone : forall f g a b paths t0 tn rate, paths <> [] ->
  exists x y, price_mc (fun p => Ret (f p)) paths t0 tn rate = Ret (Some x) /\ price_mc (fun p => Ret (g p)) paths t0 tn rate = Ret (Some y) /\
    price_mc (fun p => Ret (a * f p + b * g p)) paths t0 tn rate = Ret (Some (a * x + b * y)) /\
    ((forall p, In p paths -> f p <= g p) -> x <= y).
Proof.
  intros f g a b paths t0 tn rate NE. pose proof (INR_len_pos paths NE) as N0.
  do 2 eexists. split; [apply (mc_average _ f); auto|]. split; [apply (mc_average _ g); auto|]. split.
  - destruct (mc_average (fun p => Ret (a * f p + b * g p)) (fun p => a * f p + b * g p) paths t0 tn rate NE (fun p _ => eq_refl)) as [E _]. rewrite E. do 2 f_equal.
    rewrite (rsum_map_plus (fun p => a * f p) (fun p => b * g p)), !rsum_map_scal. unfold Rdiv. ring.
  - intros H. pose proof (rsum_map_le f g paths H). pose proof (exp_pos (- (rate * (tn - t0)))).
    apply Rmult_le_compat_l; [lra|]. apply Rmult_le_compat_r; [left; apply Rinv_0_lt_compat; exact N0|exact H0].
Qed.
Print Assumptions mc_linear_monotone.

(** put-call parity holds exactly path by path, hence for the simulated prices;
    and knock-in plus knock-out prices the vanilla *)
Theorem mc_parity : forall k b rebate tf paths t0 tn rate, paths <> [] -> (forall p, In p paths -> p <> []) ->
  exists c p ui uo v m,
    price_mc (fun q => Ret (vanilla_payoff Call k (path_independent q))) paths t0 tn rate = Ret (Some c) /\
    price_mc (fun q => Ret (vanilla_payoff Put k (path_independent q))) paths t0 tn rate = Ret (Some p) /\
    mean (map path_independent paths) = Ret m /\ c - p = exp (- (rate * (tn - t0))) * (m - k) /\
    price_mc (barrier_payoff UpAndIn tf b k rebate) paths t0 tn rate = Ret (Some ui) /\
    price_mc (barrier_payoff UpAndOut tf b k rebate) paths t0 tn rate = Ret (Some uo) /\
    price_mc (fun q => Ret (vanilla_payoff tf k (path_independent q))) paths t0 tn rate = Ret (Some v) /\ ui + uo = v.
Proof.
  intros k b rebate tf paths t0 tn rate NE NEp. pose proof (INR_len_pos paths NE) as N0.
  assert (NE' : map path_independent paths <> []) by (destruct paths; [congruence|discriminate]).
  set (fi := fun q => match barrier_payoff UpAndIn tf b k rebate q with Ret x => x | _ => 0 end).
  set (fo := fun q => match barrier_payoff UpAndOut tf b k rebate q with Ret x => x | _ => 0 end).
  assert (Hb : forall q, In q paths -> barrier_payoff UpAndIn tf b k rebate q = Ret (fi q) /\ barrier_payoff UpAndOut tf b k rebate q = Ret (fo q) /\
    fi q + fo q = vanilla_payoff tf k (path_independent q)).
  { intros q Hq. destruct (last_nonempty q (NEp q Hq)) as (t & Et). destruct (barrier_identities tf b k rebate q t Et) as (ui & uo & di & d_o & E1 & E2 & _ & _ & S1 & _).
    unfold fi, fo, path_independent. rewrite E1, E2, Et. auto. }
  do 6 eexists. split; [apply (mc_average _ (fun q => vanilla_payoff Call k (path_independent q))); auto|].
  split; [apply (mc_average _ (fun q => vanilla_payoff Put k (path_independent q))); auto|].
  split; [apply mean_avg; exact NE'|]. split.
  { unfold avg, len. rewrite map_length, <- Rmult_minus_distr_l. f_equal.
    replace (rsum (map (fun q => vanilla_payoff Call k (path_independent q)) paths)) with
      (rsum (map (fun q => vanilla_payoff Put k (path_independent q) + (path_independent q + - k)) paths)).
    - rewrite rsum_map_plus, rsum_map_plus, rsum_map_const. field. lra.
    - apply rsum_map_ext. intros q _. destruct (vanilla_identities k (path_independent q) 0) as (E & _). lra. }
  split; [apply (mc_average _ fi); [exact NE|intros; apply Hb; assumption]|].
  split; [apply (mc_average _ fo); [exact NE|intros; apply Hb; assumption]|].
  split; [apply (mc_average _ (fun q => vanilla_payoff tf k (path_independent q))); auto|].
  rewrite <- Rmult_plus_distr_l. f_equal. replace (rsum (map (fun q => vanilla_payoff tf k (path_independent q)) paths)) with (rsum (map (fun q => fi q + fo q) paths)).
  - rewrite rsum_map_plus. field. lra.
  - apply rsum_map_ext. intros q Hq. apply Hb, Hq.
Qed.
Print Assumptions mc_parity.
Example mc_parity_case : [[100; 110]; [100; 95]] <> [] /\ forall p, In p [[100; 110]; [100; 95]] -> p <> [].
Proof. split; [discriminate|]. intros p [<-|[<-|[]]]; discriminate. Qed.
(** no simulated path: the price is 0/0, not a number; a panicking payoff panics *)
Theorem mc_edge_cases : forall payoff paths t0 tn rate,
  price_mc payoff [] t0 tn rate = Ret None /\
  ((exists p, In p paths /\ payoff p = Panic) -> (forall p, payoff p <> NoFuel) -> price_mc payoff paths t0 tn rate = Panic).
Proof.
  intros payoff paths t0 tn rate. split.
  - unfold price_mc. cbn. unfold fdiv. destruct (Reqb_spec 0 0); [reflexivity|lra].
  - intros (p & I & P) NF. unfold price_mc. assert (E : sum_payoffs payoff paths = Panic); [|rewrite E; reflexivity].
    induction paths as [|q paths IH]; [destruct I|]. cbn [sum_payoffs]. destruct I as [->|I].
    + rewrite P. reflexivity.
    + specialize (NF q). destruct (payoff q) as [x| |]; cbn [bind]; [|reflexivity|congruence]. rewrite IH by exact I. reflexivity.
Qed.
Print Assumptions mc_edge_cases.

(** ** C58: Longstaff-Schwartz *)

(** the polynomials used by the regression are the Laguerre polynomials *)
Theorem laguerre_rows : forall x, laguerre_row x =
  [1; 1 - x; (x ^ 2 - 4 * x + 2) / 2; (- x ^ 3 + 9 * x ^ 2 - 18 * x + 6) / 6; (x ^ 4 - 16 * x ^ 3 + 72 * x ^ 2 - 96 * x + 24) / 24].
Proof. intros x. unfold laguerre_row. cbv zeta. do 2 f_equal. f_equal; [field|]. f_equal; [field|]. f_equal. field. Qed.
Print Assumptions laguerre_rows.

Section LsmProofs.
  Variable draw : nat -> nat -> R.
  Variable solve : list (list R) -> list R -> option (list R).
  Variable m : lsm.
  Variable T : R.
  Let N := l_sims m.
  Let n := l_steps m.
  Let dt := T / INR n.
  Let D := exp (- (l_r m * dt)).
  Let pay := vanilla_payoff (l_tf m) (l_k m).

  (** specification: the log-price of simulation [j] at time [k dt], from the
      end point by Brownian-bridge steps; [d = n - k] *)
  Fixpoint logprice (d j : nat) : R :=
    match d with
    | O => (l_r m - l_v m * l_v m / 2) * T + l_v m * sqrt T * draw n j
    | S d' =>
        let t := INR (n - d) * dt in
        logprice d' j * (t / (t + dt)) + l_v m * sqrt (t * dt / (t + dt)) * draw (n - d) j
    end.
  Definition price_at (k j : nat) : R := l_s0 m * exp (logprice (n - k) j).

  Lemma discount_D : discount m T = D.
  Proof. unfold discount, D, delta_t. f_equal. unfold dt, n. ring. Qed.
  Lemma end_points_eq : end_points draw m T = map (logprice 0) (seq 0 N).
  Proof. unfold end_points. apply map_ext. intros j. cbn [logprice]. unfold n, Rdiv. ring. Qed.
  Lemma combine_seq_map {A} (f : nat -> A) a k : combine (seq a k) (map f (seq a k)) = map (fun j => (j, f j)) (seq a k).
  Proof. revert a. induction k as [|k IH]; intros a; simpl; [reflexivity|]. rewrite IH. reflexivity. Qed.
  Lemma backwards_eq d : backwards draw m T (map (logprice d) (seq 0 N)) (n - S d) = map (logprice (S d)) (seq 0 N).
  Proof.
    unfold backwards. rewrite map_length, seq_length, combine_seq_map, map_map. apply map_ext. intros j. cbn [fst snd logprice].
    change (delta_t m T) with dt. f_equal. unfold Rdiv. rewrite !Rmult_assoc. reflexivity.
  Qed.

  Lemma update_spec : forall prices cont ps, length prices = length ps ->
    length cont = length (filter (fun s => Rltb 0 (pay s)) prices) ->
    exists r, update m T cont prices ps = Ret r /\ length r = length ps /\
      forall j s p, nth_error prices j = Some s -> nth_error ps j = Some p ->
        exists v, nth_error r j = Some v /\ ((v = pay s /\ 0 < pay s) \/ v = D * p).
  Proof.
    induction prices as [|s prices IH]; intros cont [|p ps] L C; try discriminate.
    - exists []. split; [reflexivity|]. split; [reflexivity|]. intros j; destruct j; discriminate.
    - cbn [update filter] in *. change (calculate_payoff m s) with (pay s). rewrite discount_D.
      destruct (Rltb_spec 0 (pay s)) as [P|P].
      + destruct cont as [|c cont]; [discriminate|]. destruct (IH cont ps) as (r & E & Lr & H); [injection L; auto|injection C; auto|].
        rewrite E. cbn [bind]. eexists. split; [reflexivity|]. split; [simpl; lia|]. intros [|j] s' p' Hs Hp.
        * injection Hs as <-. injection Hp as <-. eexists. split; [reflexivity|]. destruct (Rltb c (pay s)); auto.
        * apply (H j s' p' Hs Hp).
      + destruct (IH cont ps) as (r & E & Lr & H); [injection L; auto|exact C|].
        rewrite E. cbn [bind]. eexists. split; [reflexivity|]. split; [simpl; lia|]. intros [|j] s' p' Hs Hp.
        * injection Hs as <-. injection Hp as <-. eexists. split; [reflexivity|]. auto.
        * apply (H j s' p' Hs Hp).
  Qed.
  Lemma itm_length prices : length (filter (fun x => Rltb 0 x) (map (calculate_payoff m) prices)) = length (filter (fun s => Rltb 0 (pay s)) prices).
  Proof.
    induction prices as [|s prices IH]; [reflexivity|]. cbn [map filter]. change (calculate_payoff m s) with (pay s).
    destruct (Rltb 0 (pay s)); cbn [length]; rewrite IH; reflexivity.
  Qed.

  (** cash flow of one path, valued at [k dt]: one exercise at some [tau >= k] *)
  Definition exercised (k j : nat) (v : R) : Prop :=
    exists tau, (k <= tau <= n)%nat /\ v = D ^ (tau - k) * pay (price_at tau j).

  Lemma loop_spec : forall k d ps, (k + d + 1 = n)%nat -> length ps = N ->
    (forall j v, nth_error ps j = Some v -> exercised (k + 1) j v) ->
    exists ps', lsm_loop draw solve m T k (map (logprice d) (seq 0 N), ps) = Ret (map (logprice (d + k)) (seq 0 N), ps') /\ length ps' = N /\
      forall j v, nth_error ps' j = Some v -> exercised 1 j v.
  Proof.
    induction k as [|k IH]; intros d ps K L H.
    - exists ps. cbn [lsm_loop]. rewrite Nat.add_0_r. auto.
    - cbn [lsm_loop]. unfold lsm_step. 
      replace (backwards draw m T (map (logprice d) (seq 0 N)) (S k)) with (map (logprice (S d)) (seq 0 N)).
      2: { rewrite <- backwards_eq. f_equal. lia. }
      set (prices := asset_prices m (map (logprice (S d)) (seq 0 N))).
      assert (Lp : length prices = N) by (unfold prices, asset_prices; rewrite !map_length, seq_length; reflexivity).
      assert (Pr : forall j, (j < N)%nat -> nth_error prices j = Some (price_at (S k) j)).
      { intros j Hj. unfold prices, asset_prices. rewrite map_map, nth_error_map, (nth_error_nth' _ 0%nat) by (rewrite seq_length; exact Hj).
        rewrite seq_nth by exact Hj. cbn [option_map]. f_equal. unfold price_at. replace (n - S k)%nat with (S d) by lia. reflexivity. }
      assert (Keep : forall j p, nth_error ps j = Some p -> exercised (S k) j (D * p)).
      { intros j p Hp. destruct (H j p Hp) as (tau & Ht & ->). exists tau. split; [lia|].
        replace (tau - S k)%nat with (S (tau - (S k + 1))) by lia. cbn [pow]. ring. }
      destruct (solve _ _) as [coef|].
      + destruct (update_spec prices (map (dot coef) (map laguerre_row (filter (fun x => Rltb 0 x) (map (calculate_payoff m) prices)))) ps) as (r & E & Lr & Hr).
        { lia. } { rewrite !map_length. apply itm_length. }
        rewrite E. cbn [bind].
        destruct (IH (S d) r) as (ps' & E' & L' & H'); [lia|lia| |].
        { intros j v Hv. assert (Hj : (j < N)%nat) by (rewrite <- L, <- Lr; apply nth_error_Some; rewrite Hv; discriminate).
          destruct (nth_error ps j) as [p|] eqn:Ep; [|apply nth_error_None in Ep; lia].
          destruct (Hr j _ _ (Pr j Hj) Ep) as (v' & Ev & C). rewrite Hv in Ev. injection Ev as <-. replace (k + 1)%nat with (S k) by lia.
          destruct C as [[-> _]| ->]; [|apply Keep; exact Ep]. exists (S k). split; [lia|]. rewrite Nat.sub_diag. cbn [pow]. ring. }
        exists ps'. replace (d + S k)%nat with (S d + k)%nat by lia. auto.
      + destruct (IH (S d) (map (Rmult (discount m T)) ps)) as (ps' & E' & L' & H'); [lia|rewrite map_length; exact L| |].
        { intros j v Hv. rewrite nth_error_map in Hv. destruct (nth_error ps j) as [p|] eqn:Ep; [|discriminate]. cbn [option_map] in Hv.
          injection Hv as <-. rewrite discount_D. replace (k + 1)%nat with (S k) by lia. apply Keep. exact Ep. }
        exists ps'. cbn [bind]. replace (d + S k)%nat with (S d + k)%nat by lia. auto.
  Qed.
End LsmProofs.

(** valid parameters: never panics; the price is the average over the
    simulations of one payoff each, taken at one date [tau_j] between the first
    step and expiry and discounted back to the *first step* *)
Definition lsm_valid (m : lsm) (T : R) : Prop :=
  0 < T /\ 0 < l_s0 m /\ 0 < l_k m /\ 0 < l_r m /\ 0 < l_v m /\ (0 < l_steps m)%nat /\ (0 < l_sims m)%nat.
Lemma lsm_ok_iff m T : lsm_ok m T = true <-> lsm_valid m T.
Proof.
  unfold lsm_ok, lsm_valid. rewrite !andb_true_iff, !Nat.ltb_lt.
  assert (L : forall a b, Rltb a b = true <-> a < b) by (intros a b; destruct (Rltb_spec a b); split; intros; (assumption || discriminate || contradiction || reflexivity)).
  rewrite !L. tauto.
Qed.

Theorem lsm_single_exercise : forall draw solve m T, lsm_valid m T ->
  exists vals, generate_price draw solve m T = Ret (rsum vals / INR (l_sims m)) /\ length vals = l_sims m /\
    forall j v, nth_error vals j = Some v -> exists tau, (1 <= tau <= l_steps m)%nat /\
      v = exp (- (l_r m * (T / INR (l_steps m)))) ^ (tau - 1) * vanilla_payoff (l_tf m) (l_k m) (price_at draw m T tau j).
Proof.
  intros draw solve m T V. unfold generate_price. rewrite (proj2 (lsm_ok_iff m T) V). cbn [assertb].
  destruct V as (_ & _ & _ & _ & _ & St & _).
  rewrite end_points_eq.
  destruct (loop_spec draw solve m T (l_steps m - 1) 0 (map (calculate_payoff m) (asset_prices m (map (logprice draw m T 0) (seq 0 (l_sims m)))))) as (ps' & E & L & H).
  - lia.
  - unfold asset_prices. rewrite !map_length, seq_length. reflexivity.
  - intros j v Hv. unfold asset_prices in Hv. rewrite !map_map, nth_error_map in Hv. destruct (nth_error (seq 0 (l_sims m)) j) as [i|] eqn:Ei; [|discriminate].
    assert (Hj : (j < l_sims m)%nat) by (rewrite <- (seq_length (l_sims m) 0); apply nth_error_Some; rewrite Ei; discriminate).
    rewrite (nth_error_nth' _ 0%nat), seq_nth in Ei by (rewrite ?seq_length; exact Hj). injection Ei as <-.
    cbn [option_map] in Hv. assert (Ev : v = calculate_payoff m (l_s0 m * exp (logprice draw m T 0 j))) by congruence. subst v.
    exists (l_steps m). split; [lia|]. replace (l_steps m - (l_steps m - 1 + 1))%nat with 0%nat by lia. cbn [pow]. unfold price_at. rewrite Nat.sub_diag. unfold calculate_payoff. ring.
  - rewrite E. cbn [bind snd]. exists ps'. split; [reflexivity|]. split; [exact L|]. exact H.
Qed.
Print Assumptions lsm_single_exercise.
Example lsm_case : lsm_valid (Lsm 100 110 (/ 20) (/ 5) 4 Put 3) 1.
Proof. unfold lsm_valid. cbn. repeat split; try lra; lia. Qed.

Theorem lsm_bounds : forall draw solve m T x, generate_price draw solve m T = Ret x ->
  0 <= x /\ (l_tf m = Put -> x <= l_k m).
Proof.
  intros draw solve m T x H.
  assert (V : lsm_valid m T) by (apply lsm_ok_iff; unfold generate_price in H; destruct (lsm_ok m T); [reflexivity|discriminate]).
  destruct (lsm_single_exercise draw solve m T V) as (vals & E & L & Hv). rewrite H in E. injection E as ->.
  destruct V as (T0 & S0 & K0 & R0 & V0 & St & N0).
  assert (NE : vals <> []) by (intros ->; simpl in L; lia).
  destruct (mean_laws vals vals 0 0 NE) as [_ (mu & Em & _ & _ & Bm & _)]. rewrite mean_avg in Em by exact NE. injection Em as <-.
  unfold avg, len in Bm. rewrite L in Bm. 
  set (D := exp (- (l_r m * (T / INR (l_steps m))))) in *.
  assert (D1 : 0 < D <= 1).
  { unfold D. split; [apply exp_pos|]. rewrite <- exp_0. left. apply exp_increasing. 
    assert (0 < T / INR (l_steps m)) by (apply Rdiv_lt_0_compat; [exact T0|apply lt_0_INR; exact St]). nra. }
  assert (Dk : forall k, 0 < D ^ k <= 1).
  { induction k as [|k IH]; cbn [pow]; [lra|]. split; [apply Rmult_lt_0_compat; tauto|]. nra. }
  assert (B0 : forall v, In v vals -> 0 <= v).
  { intros v Hin. apply In_nth_error in Hin as (j & Hj). destruct (Hv j v Hj) as (tau & _ & ->).
    destruct (vanilla_identities (l_k m) (price_at draw m T tau j) 0) as (_ & P & _). specialize (P (l_tf m)). specialize (Dk (tau - 1)%nat). apply Rmult_le_pos; [lra|exact P]. }
  split.
  - apply (Bm 0 (Rmax 0 (rsum vals))). intros v Hin. split; [apply B0, Hin|].
    (* each value is at most the sum of non-negative values *)
    clear - B0 Hin. assert (v <= rsum vals); [|unfold Rmax; destruct (Rle_dec 0 (rsum vals)); lra].
    induction vals as [|a vals IH]; [destruct Hin|]. change (rsum (a :: vals)) with (a + rsum vals).
    assert (Sn : 0 <= rsum vals) by (rewrite <- (map_id vals); apply rsum_nonneg; intros; apply B0; right; assumption).
    assert (0 <= a) by (apply B0; left; reflexivity).
    destruct Hin as [->|Hin]; [lra|]. assert (v <= rsum vals) by (apply IH; [intros; apply B0; right; assumption|exact Hin]). lra.
  - intros TF. apply (Bm 0 (l_k m)). intros v Hin. split; [apply B0, Hin|].
    apply In_nth_error in Hin as (j & Hj). destruct (Hv j v Hj) as (tau & _ & ->). rewrite TF. cbn [vanilla_payoff].
    assert (P : 0 <= Rmax (l_k m - price_at draw m T tau j) 0 <= l_k m).
    { assert (0 < price_at draw m T tau j) by (unfold price_at; apply Rmult_lt_0_compat; [exact S0|apply exp_pos]). mm; lra. }
    specialize (Dk (tau - 1)%nat). nra.
Qed.
Print Assumptions lsm_bounds.

(** the backward sampling has the marginal law of the log-price: if the value at
    t+dt is mu(t+dt) + sigma sqrt(t+dt) z, the value at t is
    mu t + a z + b z' with a^2 + b^2 = sigma^2 t *)
Theorem lsm_bridge_marginals : forall sigma mu t dt z z', 0 < t -> 0 < dt ->
  exists a b, (mu * (t + dt) + sigma * sqrt (t + dt) * z) * (t / (t + dt)) + sigma * sqrt (t * dt / (t + dt)) * z' = mu * t + a * z + b * z' /\
    a * a + b * b = sigma * sigma * t.
Proof.
  intros sigma mu t dt z z' T0 D0. exists (sigma * sqrt (t + dt) * (t / (t + dt))), (sigma * sqrt (t * dt / (t + dt))). split.
  - field. lra.
  - replace (sigma * sqrt (t + dt) * (t / (t + dt)) * (sigma * sqrt (t + dt) * (t / (t + dt)))) with (sigma * sigma * (sqrt (t + dt) * sqrt (t + dt)) * (t / (t + dt)) * (t / (t + dt))) by ring.
    replace (sigma * sqrt (t * dt / (t + dt)) * (sigma * sqrt (t * dt / (t + dt)))) with (sigma * sigma * (sqrt (t * dt / (t + dt)) * sqrt (t * dt / (t + dt)))) by ring.
    rewrite !sqrt_sqrt; [field; lra| |lra]. apply Rmult_le_pos; [nra|left; apply Rinv_0_lt_compat; lra].
Qed.
Print Assumptions lsm_bridge_marginals.

(** findings: the result is a value at the first time step, not at the
    evaluation date (with one step it is not discounted at all), and exercise
    at the evaluation date is never considered *)
Theorem lsm_not_discounted_refuted : exists draw solve m T x, generate_price draw solve m T = Ret x /\
  (* every path pays the same, at expiry *)
  l_steps m = 1%nat /\ x = vanilla_payoff (l_tf m) (l_k m) (price_at draw m T 1 0) /\ 0 < x /\ x <> exp (- (l_r m * T)) * x.
Proof.
  set (m := Lsm 1 1 1 1 1 Call 1). exists (fun _ _ => 0), (fun _ _ => None), m, 1.
  assert (V : lsm_valid m 1) by (unfold lsm_valid, m; cbn; repeat split; try lra; lia).
  destruct (lsm_single_exercise (fun _ _ => 0) (fun _ _ => None) m 1 V) as (vals & E & L & H).
  destruct vals as [|v [|? ?]]; try discriminate. destruct (H 0%nat v eq_refl) as (tau & Ht & Hv).
  assert (tau = 1)%nat by (cbn in Ht; lia). subst tau. cbn [Nat.sub pow] in Hv. rewrite Rmult_1_l in Hv.
  exists v. assert (Ev : rsum [v] / INR (l_sims m) = v) by (unfold rsum; simpl; field). rewrite Ev in E.
  split; [exact E|]. split; [reflexivity|]. split; [exact Hv|].
  assert (P : 0 < v).
  { rewrite Hv. unfold price_at, m, vanilla_payoff. cbn [l_tf l_k l_steps l_s0 Nat.sub logprice l_r l_v].
    rewrite sqrt_1. replace ((1 - 1 * 1 / 2) * 1 + 1 * 1 * 0) with (/ 2) by field.
    assert (1 < exp (/ 2)) by (rewrite <- exp_0 at 1; apply exp_increasing; lra). mm; lra. }
  split; [exact P|]. intros X. assert (exp (- (l_r m * 1)) < 1) by (apply Rlt_le_trans with (exp 0); [apply exp_increasing; change (l_r m) with 1; lra|rewrite exp_0; lra]). nra.
Qed.
Print Assumptions lsm_not_discounted_refuted.
Theorem lsm_below_intrinsic_refuted : exists draw solve m T x, generate_price draw solve m T = Ret x /\
  x < vanilla_payoff (l_tf m) (l_k m) (l_s0 m).
Proof.
  set (m := Lsm 1 2 1 1 1 Put 1). exists (fun _ _ => 0), (fun _ _ => None), m, 1.
  assert (V : lsm_valid m 1) by (unfold lsm_valid, m; cbn; repeat split; try lra; lia).
  destruct (lsm_single_exercise (fun _ _ => 0) (fun _ _ => None) m 1 V) as (vals & E & L & H).
  destruct vals as [|v [|? ?]]; try discriminate. destruct (H 0%nat v eq_refl) as (tau & Ht & Hv).
  assert (tau = 1)%nat by (cbn in Ht; lia). subst tau. cbn [Nat.sub pow] in Hv. rewrite Rmult_1_l in Hv.
  exists v. assert (Ev : rsum [v] / INR (l_sims m) = v) by (unfold rsum; simpl; field). rewrite Ev in E.
  split; [exact E|]. rewrite Hv. unfold price_at, m, vanilla_payoff. cbn [l_tf l_k l_steps l_s0 Nat.sub logprice l_r l_v].
  rewrite sqrt_1. replace ((1 - 1 * 1 / 2) * 1 + 1 * 1 * 0) with (/ 2) by field.
  assert (1 < exp (/ 2)) by (rewrite <- exp_0 at 1; apply exp_increasing; lra). mm; lra.
Qed.
Print Assumptions lsm_below_intrinsic_refuted.

(** the exercise rule at a step: a path that is out of the money is held; an
    in-the-money path is exercised exactly when its payoff exceeds the fitted
    value, i.e. the regression coefficients applied to the five polynomials of
    that path's own payoff; if the regression fails every path is held *)
Lemma update_rule m T coef : forall prices ps, length prices = length ps ->
  update m T (map (dot coef) (map laguerre_row (filter (fun x => Rltb 0 x) (map (calculate_payoff m) prices)))) prices ps =
  Ret (map (fun q => if Rltb 0 (calculate_payoff m (fst q)) && Rltb (dot coef (laguerre_row (calculate_payoff m (fst q)))) (calculate_payoff m (fst q))
                     then calculate_payoff m (fst q) else discount m T * snd q) (combine prices ps)).
Proof.
  induction prices as [|s prices IH]; intros [|p ps] L; try discriminate; [reflexivity|].
  cbn [map filter combine update fst snd]. destruct (Rltb 0 (calculate_payoff m s)); cbn [map andb].
  - rewrite IH by (injection L; auto). reflexivity.
  - rewrite IH by (injection L; auto). reflexivity.
Qed.
Theorem lsm_exercise_rule : forall draw solve m T step chain ps, length chain = length ps ->
  exists chain' ps', lsm_step draw solve m T step (chain, ps) = Ret (chain', ps') /\ length chain' = length chain /\ length ps' = length ps /\
    forall j x p, nth_error chain' j = Some x -> nth_error ps j = Some p -> exists v, nth_error ps' j = Some v /\
      let now := vanilla_payoff (l_tf m) (l_k m) (l_s0 m * exp x) in
      let hold := exp (- (l_r m * (T / INR (l_steps m)))) * p in
      (now <= 0 -> v = hold) /\
      (0 < now ->
         (* the regression data: one row and one discounted value per in-the-money path *)
         let itm := filter (fun q : R * R => Rltb 0 (vanilla_payoff (l_tf m) (l_k m) (fst q))) (combine (map (fun x => l_s0 m * exp x) chain') ps) in
         let rows := map (fun q : R * R => laguerre_row (vanilla_payoff (l_tf m) (l_k m) (fst q))) itm in
         let ys := map (fun q : R * R => exp (- (l_r m * (T / INR (l_steps m)))) * snd q) itm in
         match solve rows ys with
         | None => v = hold
         | Some c => let fitted := rsum (map (fun q => fst q * snd q) (combine c (laguerre_row now))) in
                     (fitted < now -> v = now) /\ (now <= fitted -> v = hold)
         end).
Proof.
  intros draw solve m T step chain ps L. unfold lsm_step.
  set (chain' := backwards draw m T chain step). set (prices := asset_prices m chain').
  assert (Lc : length chain' = length chain) by (unfold chain', backwards; rewrite map_length, combine_length, seq_length, Nat.min_id; reflexivity).
  assert (Lp : length prices = length ps) by (unfold prices, asset_prices; rewrite map_length; lia).
  set (itm := filter (fun x => Rltb 0 x) (map (calculate_payoff m) prices)).
  set (ys := map (Rmult (discount m T)) (map snd (filter (fun q : R * R => Rltb 0 (calculate_payoff m (fst q))) (combine prices ps)))).
  assert (D : discount m T = exp (- (l_r m * (T / INR (l_steps m))))) by (unfold discount, delta_t; f_equal; ring).
  set (fl := filter (fun q : R * R => Rltb 0 (vanilla_payoff (l_tf m) (l_k m) (fst q))) (combine (map (fun x => l_s0 m * exp x) chain') ps)).
  assert (Rows : map laguerre_row itm = map (fun q : R * R => laguerre_row (vanilla_payoff (l_tf m) (l_k m) (fst q))) fl).
  { unfold itm, fl. fold (asset_prices m chain'). fold prices. clear - Lp. revert ps Lp. induction prices as [|s pr IH]; intros [|p ps] Lp; try discriminate; [reflexivity|].
    cbn [map combine filter fst]. change (calculate_payoff m s) with (vanilla_payoff (l_tf m) (l_k m) s).
    destruct (Rltb 0 (vanilla_payoff (l_tf m) (l_k m) s)); cbn [map fst]; rewrite (IH ps) by (injection Lp; auto); reflexivity. }
  assert (Ys : ys = map (fun q : R * R => exp (- (l_r m * (T / INR (l_steps m)))) * snd q) fl).
  { unfold ys. rewrite map_map, D. reflexivity. }
  assert (Nth : forall j x p, nth_error chain' j = Some x -> nth_error ps j = Some p -> nth_error (combine prices ps) j = Some (l_s0 m * exp x, p)).
  { intros j x p Hx Hp. assert (Hs : nth_error prices j = Some (l_s0 m * exp x)) by (unfold prices, asset_prices; rewrite nth_error_map, Hx; reflexivity).
    clear - Hs Hp. revert j ps Hs Hp. induction prices as [|s pr IH]; intros [|j] [|q ps] Hs Hp; try discriminate; cbn in *; [congruence|apply IH; assumption]. }
  destruct (solve (map laguerre_row itm) ys) as [c|] eqn:Es.
  - unfold itm. rewrite update_rule by exact Lp. cbn [bind]. do 2 eexists. split; [reflexivity|]. split; [exact Lc|].
    split; [rewrite map_length, combine_length; lia|]. intros j x p Hx Hp. rewrite nth_error_map, (Nth j x p Hx Hp). cbn [option_map fst snd].
    eexists. split; [reflexivity|]. unfold calculate_payoff. cbv zeta. rewrite D.
    destruct (Rltb_spec 0 (vanilla_payoff (l_tf m) (l_k m) (l_s0 m * exp x))) as [P|P]; cbn [andb].
    + split; [intros; lra|]. intros _. fold fl. rewrite <- Rows, <- Ys, Es. unfold dot.
      destruct (Rltb_spec (rsum (map (fun p0 : R * R => fst p0 * snd p0) (combine c (laguerre_row (vanilla_payoff (l_tf m) (l_k m) (l_s0 m * exp x)))))) (vanilla_payoff (l_tf m) (l_k m) (l_s0 m * exp x))); split; intros; lra.
    + split; [reflexivity|]. intros; lra.
  - do 2 eexists. split; [reflexivity|]. split; [exact Lc|]. split; [rewrite map_length; reflexivity|].
    intros j x p Hx Hp. rewrite nth_error_map, Hp. cbn [option_map]. eexists. split; [reflexivity|]. cbv zeta. rewrite D. split; [reflexivity|].
    intros _. fold fl. rewrite <- Rows, <- Ys, Es. reflexivity.
Qed.
Print Assumptions lsm_exercise_rule.
