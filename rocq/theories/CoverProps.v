(** Statements added for definitions that no theorem constrained: conventions without leap days (C15), the
  sign transfer and the whole of Brent's method (C24), the graph (C08), ultima of a put (C34), the
  constructor of gradient descent (C44), the binomial mass beyond n (C51), the return on VaR (C57). *)
From Coq Require Import Reals ZArith QArith List Bool Lia Lra Psatz.
From Coquelicot Require Import Coquelicot.
From Verif Require Import Res InterpModel InterpProofs.
From Verif Require DateModel CalModel CalProofs DayCountModel DayCountProps RootModel RootProps AdModel BsmModel BsmProps GdModel DistModel DistDisc StatModel StatProps.
Import ListNotations.

(** ** C15 *)
Section NoLeap.
Import DateModel CalModel DayCountModel.
Local Open Scope Z_scope.
(** No-leap fractions are the days between the dates, less the number of leap years from the first year to
    the last, over 360 and over 365. *)
Theorem dc_no_leap : forall a b, exists f g l, day_count_factor No_Leap_360 a b = Ret f /\ day_count_factor No_Leap_365 a b = Ret g /\
  NoDup l /\ (forall y, In y l <-> year a <= y <= year b /\ is_leap y = true) /\
  (f * 360 == inject_Z (daynum b - daynum a - Z.of_nat (length l)))%Q /\ (g * 365 == inject_Z (daynum b - daynum a - Z.of_nat (length l)))%Q.
Proof.
  intros a b. exists (dcf_nl 360 a b), (dcf_nl 365 a b), (filter is_leap (years_in_range a b)). split; [reflexivity|]. split; [reflexivity|].
  split; [apply NoDup_filter, CalProofs.years_in_range_NoDup|]. split; [intros y; rewrite filter_In, CalProofs.years_in_range_In; reflexivity|].
  split; (unfold dcf_nl; rewrite DayCountProps.over_mul by discriminate; reflexivity).
Qed.
Print Assumptions dc_no_leap.
Example dc_no_leap_nv : match day_count_factor No_Leap_365 (Date 2024 1 1) (Date 2025 1 1) with Ret g => Qeq_bool g 1 | _ => false end = true.
Proof. reflexivity. Qed.
End NoLeap.

Local Open Scope R_scope.

(** ** C24 *)
Section Brent.
Import RootModel RootProps.
(** The magnitude of the first number with the sign of the second; zero counts as positive. *)
Theorem nrsign_spec a b : (0 <= b -> nrsign a b = Rabs a) /\ (b < 0 -> nrsign a b = - Rabs a).
Proof.
  unfold nrsign. destruct (Rleb_spec 0 b) as [B|B], (Rleb_spec 0 a) as [A|A]; split; intros H; try lra;
    [rewrite Rabs_pos_eq by lra|rewrite Rabs_left by lra|rewrite Rabs_pos_eq by lra|rewrite Rabs_left by lra]; lra.
Qed.
Print Assumptions nrsign_spec.
Example nrsign_nv : nrsign (-3) 0 = 3 /\ nrsign (-3) (-1) = -3.
Proof. destruct (nrsign_spec (-3) 0) as [A _]. destruct (nrsign_spec (-3) (-1)) as [_ B]. rewrite A, B, Rabs_left by lra. lra. Qed.

(** Brent's method from the guess to the answer: on a continuous function, an answer other than the
    fallback 0.0 is numerically a zero, or an exact zero lies within the accuracy of it. *)
Lemma ivt_between f v z : continuity f -> f v * f z <= 0 -> exists w, f w = 0 /\ Rabs (w - v) <= Rabs (z - v).
Proof.
  intros C H. destruct (Rle_or_lt v z) as [L|L].
  - destruct (IVT_cor f v z C L H) as (w & W & E). exists w. split; [exact E|]. rewrite !Rabs_pos_eq by lra. lra.
  - rewrite Rmult_comm in H. destruct (IVT_cor f z v C (Rlt_le _ _ L) H) as (w & W & E). exists w. split; [exact E|]. rewrite !Rabs_left1 by lra. lra.
Qed.
Theorem brent_end : forall fuel f guess dt v, continuity f -> ilo dt <= ihi dt -> in_interval dt guess -> brent fuel f guess dt = Ret v ->
  v = 0 \/ Rabs (f v) < tiny \/ exists z, f z = 0 /\ Rabs (z - v) <= Rmax (accuracy dt) (/ IZR (2 ^ 52)) + 4 * / IZR (2 ^ 52) * Rabs v.
Proof.
  intros fuel f guess dt v C L G H. unfold brent in H. destruct (solve_cases _ _ _ _ _ _ L G H) as [E|[[E _]|(b & count & S & _ & _ & _ & I)]]; [left; exact E|right; left; exact E|].
  destruct (brent_sound _ _ _ _ _ _ S I) as [E|[E|(z & Z1 & Z2)]]; [left; exact E|right; left; exact E|]. right; right. destruct (ivt_between f v z C Z1) as (w & W1 & W2). exists w. split; [exact W1|]. unfold eps in Z2. lra.
Qed.
Print Assumptions brent_end.
Example brent_end_nv : in_interval (RData (/ 100) (/ 1000000) 0 2 true) 1 /\ brent 1000 (fun x => x * x - 1) 1 (RData (/ 100) (/ 1000000) 0 2 true) = Ret 1.
Proof.
  split; [intros _; simpl; lra|]. unfold brent, solve. cbn [accuracy]. destruct (Rltb_spec 0 (/ 1000000)); [|lra]. cbn [assertb]. cbv zeta.
  destruct (close_zero (1 * 1 - 1)) as [_|C]; [reflexivity|]. exfalso. apply C. replace (1 * 1 - 1) with 0 by ring. rewrite Rabs_R0. apply tiny_pos.
Qed.
End Brent.

(** ** C08 *)
Section Graph.
Import AdModel.
(** Reading a derivative panics exactly on a variable recorded after the gradient was taken. *)
Theorem wrt_domain adj x : (wrt adj x = Panic <-> (length adj <= index x)%nat) /\ ((index x < length adj)%nat -> wrt adj x = Ret (nth (index x) adj 0)).
Proof.
  unfold wrt. generalize (index x). induction adj as [|a adj IH]; intros i; [split; [split; [cbn; lia|intros _; destruct i; reflexivity]|cbn; lia]|].
  destruct i as [|i]; cbn; [split; [split; [discriminate|lia]|reflexivity]|]. destruct (IH i) as [A B]. split; [rewrite A; lia|intros H; apply B; lia].
Qed.
Print Assumptions wrt_domain.
Example wrt_domain_nv : wrt [1; 2] (Var 7 1) = Ret 2 /\ wrt [1; 2] (Var 7 2) = Panic. Proof. split; reflexivity. Qed.

(** [vars] records one leaf per value, in order, after what is already there. *)
Theorem graph_vars_spec : forall xs g g' vs, graph_vars g xs = (g', vs) ->
  length vs = length xs /\ length g' = (length g + length xs)%nat /\ firstn (length g) g' = g /\
  forall i x, nth_error xs i = Some x -> nth_error vs i = Some (Var x (length g + i)) /\
    nth_error g' (length g + i) = Some (Vertex 0 0 (length g + i) (length g + i)).
Proof.
  induction xs as [|x xs IH]; intros g g' vs H.
  - cbn in H. injection H as <- <-. rewrite firstn_all. repeat split; try (cbn; lia); intros; destruct i; discriminate.
  - cbn in H. destruct (graph_vars (g ++ [Vertex 0 0 (length g) (length g)]) xs) as [g2 ws] eqn:E. injection H as <- <-. destruct (IH _ _ _ E) as (L1 & L2 & P & Q). rewrite app_length in L2, P, Q. cbn [length] in *.
    assert (PF : firstn (length g) g2 = g). { replace (firstn (length g) g2) with (firstn (length g) (firstn (length g + 1) g2)) by (rewrite firstn_firstn; f_equal; lia). rewrite P, firstn_app, Nat.sub_diag, firstn_all. apply app_nil_r. }
    split; [lia|]. split; [lia|]. split; [exact PF|]. intros [|i] y H.
    + cbn in H. injection H as <-. rewrite Nat.add_0_r. split; [reflexivity|]. assert (N : nth_error (firstn (length g + 1) g2) (length g) = Some (Vertex 0 0 (length g) (length g))) by (rewrite P, nth_error_app2, Nat.sub_diag by lia; reflexivity).
      rewrite <- (firstn_skipn (length g + 1) g2), nth_error_app1; [exact N|]. rewrite firstn_length. lia.
    + cbn in H. destruct (Q i y H) as [A B]. replace (length g + S i)%nat with (length g + 1 + i)%nat by lia. split; [exact A|exact B].
Qed.
Print Assumptions graph_vars_spec.
Example graph_vars_nv : snd (graph_vars [Vertex 0 0 0 0] [5; 6]) = [Var 5 1; Var 6 2]. Proof. reflexivity. Qed.

(** [clear] empties the graph: every earlier variable then fails to differentiate. *)
Theorem graph_clear_spec g x : accumulate (graph_clear g) x = Panic.
Proof. unfold accumulate, graph_clear. cbn. destruct (index x); reflexivity. Qed.
Print Assumptions graph_clear_spec.

(** [zero] forgets the partial derivatives: the gradient of any variable is one for itself and zero elsewhere. *)
Lemma add_zero : forall i l, (i < length l)%nat -> add_at i 0 l = Ret l.
Proof. intros i l. revert i. induction l as [|a l IH]; intros i H; [cbn in H; lia|]. destruct i as [|i]; cbn; [rewrite Rplus_0_r; reflexivity|]. rewrite IH by (cbn in H; lia). reflexivity. Qed.
Lemma set_unit : forall i n, (i < n)%nat -> exists l, set_at i 1 (repeat 0 n) = Ret l /\ length l = n /\ forall j, nth j l 0 = if Nat.eqb j i then 1 else 0.
Proof.
  assert (Z : forall n j, nth j (repeat 0 n) 0 = 0) by (induction n as [|n IH]; intros [|j]; cbn; auto).
  intros i n. revert i. induction n as [|n IH]; intros i H; [lia|]. destruct i as [|i]; cbn.
  - exists (1 :: repeat 0 n). split; [reflexivity|]. split; [cbn; rewrite repeat_length; reflexivity|]. intros [|j]; cbn; auto.
  - destruct (IH i ltac:(lia)) as (l & E & L & N). rewrite E. cbn. exists (0 :: l). split; [reflexivity|]. split; [cbn; lia|]. intros [|j]; cbn; auto.
Qed.
Theorem graph_zero_spec g x : (forall v, In v g -> (par0 v < length g)%nat /\ (par1 v < length g)%nat) -> (index x < length g)%nat ->
  length (graph_zero g) = length g /\ exists adj, accumulate (graph_zero g) x = Ret adj /\ length adj = length g /\
    forall y, (index y < length g)%nat -> wrt adj y = Ret (if Nat.eqb (index y) (index x) then 1 else 0).
Proof.
  intros W H. assert (L : length (graph_zero g) = length g) by apply map_length. split; [exact L|]. unfold accumulate. rewrite L. destruct (set_unit _ _ H) as (l & E & LL & N). rewrite E. cbn [bind].
  exists l. split; [|split; [exact LL|intros y Y; rewrite (proj2 (wrt_domain l y)) by lia; rewrite N; reflexivity]].
  assert (K : forall n, (n <= length g)%nat -> back_loop n (graph_zero g) l = Ret l).
  { induction n as [|n IH]; intros B; [reflexivity|]. cbn. destruct (nth_error g n) as [v|] eqn:EV; [|apply nth_error_None in EV; lia]. unfold graph_zero. rewrite (map_nth_error _ _ _ EV). cbn. destruct (W v (nth_error_In _ _ EV)) as [P0 P1].
    unfold back_step. cbn [part0 part1 par0 par1]. pose proof (proj2 (wrt_domain l (Var 0 n))) as G. unfold wrt in G. cbn [index] in G. rewrite G by lia. cbn [bind]. rewrite Rmult_0_l, add_zero by lia. cbn [bind]. rewrite add_zero by lia. cbn [bind]. apply IH. lia. }
  apply K. lia.
Qed.
Print Assumptions graph_zero_spec.
Example graph_zero_nv : accumulate (graph_zero [Vertex 0 0 0 0; Vertex 3 4 0 0]) (Var 9 1) <> accumulate [Vertex 0 0 0 0; Vertex 3 4 0 0] (Var 9 1).
Proof. cbn. intros H. injection H as H. lra. Qed.
End Graph.

(** ** C34 *)
Section Ultima.
Import BsmModel BsmProps.
(** The ultima of a put is that of the call, and no more the volatility derivative of vomma than it. *)
Theorem put_ultima_refuted : forall s k t r b v, adm s k t v -> d1 s k t b v <> 0 -> d2 s k t b v <> 0 ->
  put_ultima s k t r b v = call_ultima s k t r b v /\
  exists u, is_derive (fun x => put_vomma s k t r b x) v u /\ put_ultima s k t r b v - u = 2 * d2 s k t b v ^ 2 * put_vega s k t r b v / v ^ 2 /\ put_ultima s k t r b v <> u.
Proof.
  intros s k t r b v A N1 N2. split; [reflexivity|]. destruct (ultima_refuted s k t r b v A N1 N2) as (u & D & E & F). exists u. split; [exact D|]. split; [exact E|exact F].
Qed.
Print Assumptions put_ultima_refuted.
Example put_ultima_nv : adm (exp 1) 1 1 1 /\ d1 (exp 1) 1 1 0 1 <> 0 /\ d2 (exp 1) 1 1 0 1 <> 0. Proof. exact ultima_case. Qed.
End Ultima.

(** ** C44 *)
Section Descent.
Import GdModel.
(** The constructor panics exactly on a tolerance that is not positive, and keeps its arguments. *)
Theorem gd_new_domain lr n : gd_new lr n None = Ret (Gd lr n None) /\
  forall t, (0 < t -> gd_new lr n (Some t) = Ret (Gd lr n (Some t))) /\ (t <= 0 -> gd_new lr n (Some t) = Panic).
Proof. split; [reflexivity|]. intros t. unfold gd_new. split; intros H; destruct (Rltb_spec 0 t); try lra; reflexivity. Qed.
Print Assumptions gd_new_domain.
Example gd_new_nv : gd_new 1 3 (Some 1) = Ret (Gd 1 3 (Some 1)) /\ gd_new 1 3 (Some 0) = Panic.
Proof. split; apply gd_new_domain; lra. Qed.
End Descent.

(** ** C51 *)
Section Binomial.
Import DistModel.
(** The mass at a point beyond the number of trials panics, where it should be zero; with at most twelve
    trials it panics nowhere else. *)
Theorem binomial_pmf_domain n p k : (n <= 12)%nat -> binomial_pmf n p (INR k) = Panic <-> (n < k)%nat.
Proof.
  intros N. split; intros H.
  - destruct (Nat.le_gt_cases k n) as [L|L]; [|exact L]. rewrite DistDisc.binomial_pmf_exact in H by assumption. discriminate.
  - unfold binomial_pmf. rewrite DistDisc.as_usize_INR. destruct (Nat.leb_spec k n); [lia|reflexivity].
Qed.
Print Assumptions binomial_pmf_domain.
Example binomial_pmf_domain_nv : binomial_pmf 3 (1 / 2) (INR 4) = Panic. Proof. apply binomial_pmf_domain; lia. Qed.
End Binomial.

(** ** C57 *)
Section Ratio.
Import StatModel.
(** The return on VaR is the return per unit of VaR: not finite exactly when the VaR is zero, and the same
    when both are scaled. *)
Theorem return_on_var_spec m : (return_on_var m = None <-> m_var m = 0) /\ (forall r, return_on_var m = Some r -> r * m_var m = m_rp m) /\
  forall k, k <> 0 -> return_on_var (Measures (k * m_rp m) (m_r m) (m_beta m) (m_sigma m) (m_down m) (k * m_var m) (m_rm m)) = return_on_var m.
Proof.
  unfold return_on_var. cbn [m_rp m_var]. split; [|split; [|intros k K; apply StatProps.fdiv_scale, K]].
  - unfold fdiv. destruct (Reqb_spec (m_var m) 0); split; intros; congruence.
  - intros r. unfold fdiv. destruct (Reqb_spec (m_var m) 0); [discriminate|]. intros H. injection H as <-. field. assumption.
Qed.
Print Assumptions return_on_var_spec.
Example return_on_var_nv : return_on_var (Measures 6 0 1 1 1 2 1) <> None. Proof. intros H. apply return_on_var_spec in H. cbn in H. lra. Qed.
End Ratio.
