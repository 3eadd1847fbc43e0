(** Property C116: reflecting a sample in binary64 negates its skewness exactly and keeps its kurtosis. *)
From Coq Require Import ZArith Reals List Bool Lia Lra Psatz.
From Flocq Require Import Core.Core IEEE754.BinarySingleNaN.
From Verif Require Import Res F64Model F64SkewModel F64Base F64Order F64Sum F64Quad F64FdGrid F64Cov F64Corr.
Import ListNotations.
Local Open Scope R_scope.

(** ** Operations commute with a sign *)
Definition sgn (c : R) : Prop := c = 1 \/ c = -1.
Lemma sgn_mul c d : sgn c -> sgn d -> sgn (c * d). Proof. intros [->| ->] [->| ->]; unfold sgn; lra. Qed.
Lemma sgn_abs c x : sgn c -> Rabs (c * x) = Rabs x. Proof. intros [->| ->]; rewrite Rabs_mult; [rewrite Rabs_R1|rewrite (Rabs_left (-1)) by lra]; ring. Qed.
Lemma sgn_rnd c x : sgn c -> rnd (c * x) = c * rnd x.
Proof. intros [->| ->]; [rewrite !Rmult_1_l; reflexivity|]. replace (-1 * x) with (- x) by ring. unfold rnd. rewrite round_NE_opp. ring. Qed.
(** if the first is finite, so is the second, with the value times a sign *)
Definition same (c : R) (x y : f64) : Prop := fin x -> fin y /\ val y = c * val x.
Lemma same_refl x : same 1 x x. Proof. intros H. split; [exact H|ring]. Qed.
Lemma same_add c a a' b b' : sgn c -> same c a a' -> same c b b' -> same c (fadd a b) (fadd a' b').
Proof.
  intros C A B H. destruct (fadd_fin _ _ H) as (FA & FB & V & K). destruct (A FA) as [FA' VA]. destruct (B FB) as [FB' VB].
  assert (E : rnd (val a' + val b') = c * rnd (val a + val b)) by (rewrite VA, VB, <- (sgn_rnd c _ C); f_equal; ring). destruct (fadd_R a' b' FA' FB') as [F W]; [rewrite E, (sgn_abs c _ C); exact K|]. split; [exact F|]. rewrite W, E, V. reflexivity.
Qed.
Lemma same_sub c a a' b b' : sgn c -> same c a a' -> same c b b' -> same c (fsub a b) (fsub a' b').
Proof.
  intros C A B H. destruct (fsub_fin _ _ H) as (FA & FB & V & K). destruct (A FA) as [FA' VA]. destruct (B FB) as [FB' VB].
  assert (E : rnd (val a' - val b') = c * rnd (val a - val b)) by (rewrite VA, VB, <- (sgn_rnd c _ C); f_equal; ring). destruct (fsub_R a' b' FA' FB') as [F W]; [rewrite E, (sgn_abs c _ C); exact K|]. split; [exact F|]. rewrite W, E, V. reflexivity.
Qed.
Lemma same_mul c d a a' b b' : sgn c -> sgn d -> same c a a' -> same d b b' -> same (c * d) (fmul a b) (fmul a' b').
Proof.
  intros C D A B H. destruct (fmul_fin _ _ H) as (FA & FB & V & K). destruct (A FA) as [FA' VA]. destruct (B FB) as [FB' VB]. pose proof (sgn_mul c d C D) as CD.
  assert (E : rnd (val a' * val b') = c * d * rnd (val a * val b)) by (rewrite VA, VB, <- (sgn_rnd _ _ CD); f_equal; ring). destruct (fmul_R a' b' FA' FB') as [F W]; [rewrite E, (sgn_abs _ _ CD); exact K|]. split; [exact F|]. rewrite W, E, V. reflexivity.
Qed.
Lemma same_div c a a' b b' : sgn c -> same c a a' -> val b <> 0 -> val b' = val b -> same c (fdiv a b) (fdiv a' b').
Proof.
  intros C A NB VB H. destruct (fdiv_fin _ _ NB H) as (FA & V & K). destruct (A FA) as [FA' VA].
  assert (E : rnd (val a' / val b') = c * rnd (val a / val b)) by (rewrite VA, VB, <- (sgn_rnd c _ C); f_equal; unfold Rdiv; ring). destruct (fdiv_R a' b' FA' ltac:(rewrite VB; exact NB)) as [F W]; [rewrite E, (sgn_abs c _ C); exact K|]. split; [exact F|]. rewrite W, E, V. reflexivity.
Qed.
Lemma same_fold c l k : sgn c -> Forall2 (same c) l k -> forall a b, same c a b -> same c (fold_left fadd l a) (fold_left fadd k b).
Proof. intros C H. induction H as [|x y l k XY H IH]; intros a b AB; [exact AB|]. cbn [fold_left]. apply IH, same_add; assumption. Qed.
Lemma same_sum c neg l k : sgn c -> Forall2 (same c) l k -> same c (fsum neg l) (fsum neg k).
Proof. intros C H. unfold fsum. apply same_fold; [exact C|exact H|]. intros F. split; [exact F|]. cbn. ring. Qed.
Lemma same_map (P : f64 -> f64 -> Prop) c (f g : f64 -> f64) l k : Forall2 P l k -> (forall x y, P x y -> same c (f x) (g y)) -> Forall2 (same c) (map f l) (map g k).
Proof. intros H K. induction H; cbn; constructor; auto. Qed.
Lemma two_length {A B} (P : A -> B -> Prop) l k : Forall2 P l k -> length l = length k.
Proof. intros H. induction H; cbn; congruence. Qed.
Lemma usize_val n : small n -> (1 <= n)%nat -> val (of_usize n) <> 0.
Proof. intros S N. destruct (usize_R _ S) as [_ ->]. apply not_0_INR. lia. Qed.

(** ** The reflected mean and deviation *)
Lemma same_mean c neg l k m : sgn c -> Forall2 (same c) l k -> small (length l) -> mean64 neg l = Ret m -> exists m', mean64 neg k = Ret m' /\ same c m m'.
Proof.
  intros C H S E. unfold mean64, nonempty in *. pose proof (two_length _ _ _ H) as L. rewrite <- L. destruct (Nat.eqb_spec (length l) 0) as [|NZ]; [discriminate E|]. cbn [assertb negb] in *. eexists. split; [reflexivity|]. assert (EM : m = fdiv (fsum neg l) (of_usize (length l))) by (injection E; intros <-; reflexivity). rewrite EM.
  apply same_div; [exact C|apply same_sum; assumption|apply usize_val; [exact S|lia]|reflexivity].
Qed.
Lemma same_sd c neg l k s : sgn c -> Forall2 (same c) l k -> small (length l) -> standard_deviation64 neg l = Ret s -> 0 < val s -> exists s', standard_deviation64 neg k = Ret s' /\ val s' = val s.
Proof.
  intros C H S E P. unfold standard_deviation64 in *. pose proof (two_length _ _ _ H) as L. rewrite <- L. destruct (Nat.ltb_spec 1 (length l)) as [L2|]; [|discriminate E]. cbn [assertb] in *. unfold sample_variance64 in *. unfold nonempty in *. rewrite <- L. destruct (Nat.eqb_spec (length l) 0) as [|NZ]; [lia|]. cbn [assertb negb] in *.
  destruct (mean64 neg l) as [m| |] eqn:EM; try discriminate E. destruct (same_mean c neg l k m C H S EM) as (m' & -> & MM). cbn [bind rmap] in *. eexists. split; [reflexivity|]. set (v := fdiv (fsum neg (map (fun x => sq64 (fsub x m)) l)) (of_usize (length l - 1))) in *. assert (ES : s = fsqrt v) by (injection E; intros <-; reflexivity). rewrite ES in *. pose proof (sqrt_fin v P) as FV.
  assert (SV : same 1 v (fdiv (fsum neg (map (fun x => sq64 (fsub x m')) k)) (of_usize (length l - 1)))). { apply same_div; [left; reflexivity| |apply usize_val; [unfold small in *; lia|lia]|reflexivity]. apply same_sum; [left; reflexivity|]. apply (same_map (same c) 1 _ _ _ _ H). intros x y XY. replace 1 with (c * c) by (destruct C as [-> | ->]; ring). apply same_mul; try exact C; apply same_sub; assumption. }
  destruct (SV FV) as [FV' VV]. rewrite Rmult_1_l in VV. pose proof (Bsqrt_correct 53 1024 p53 pe53 mode_NE v) as [B _]. pose proof (Bsqrt_correct 53 1024 p53 pe53 mode_NE (fdiv (fsum neg (map (fun x => sq64 (fsub x m')) k)) (of_usize (length l - 1)))) as [B' _]. unfold fsqrt, val in *. rewrite B, B', VV. reflexivity.
Qed.
Lemma same_scores c m m' s s' l k : sgn c -> Forall2 (same c) l k -> same c m m' -> 0 < val s -> val s' = val s -> Forall2 (same c) (scores64 m s l) (scores64 m' s' k).
Proof. intros C H M P V. unfold scores64. apply (same_map (same c) c _ _ _ _ H). intros x y XY. apply same_div; [exact C|apply same_sub; assumption|lra|exact V]. Qed.
(** the integers in the factors *)
Lemma minus_val n k kf : small n -> fin kf -> val kf = INR k -> (k < n)%nat -> fin (fsub (of_usize n) kf) /\ val (fsub (of_usize n) kf) = INR (n - k).
Proof.
  intros S FK VK L. destruct (usize_R _ S) as [FN VN]. assert (E : rnd (val (of_usize n) - val kf) = INR (n - k)). { rewrite VN, VK, <- minus_INR by lia. apply rnd_id. rewrite INR_IZR_INZ. apply int_fmt. unfold small in S. lia. }
  destruct (fsub_R _ _ FN FK) as [F V]; [|split; [exact F|rewrite V; exact E]]. rewrite E. rewrite Rabs_pos_eq by apply pos_INR. pose proof (val_lt (of_usize n)) as B. rewrite VN, Rabs_pos_eq in B by apply pos_INR. eapply Rle_lt_trans; [apply le_INR|exact B]. lia.
Qed.
Lemma mul_ge a b A B : fin a -> fin b -> 1 <= val a <= bpow radix2 A -> 1 <= val b <= bpow radix2 B -> (0 <= A)%Z -> (0 <= B)%Z -> (A + B <= 1022)%Z -> fin (fmul a b) /\ 1 <= val (fmul a b) <= bpow radix2 (A + B).
Proof.
  intros FA FB [A1 A2] [B1 B2] PA PB L. assert (P : 1 <= val a * val b <= bpow radix2 (A + B)). { rewrite bpow_plus. split; [replace 1 with (1 * 1) by ring; apply Rmult_le_compat; lra|apply Rmult_le_compat; lra]. }
  destruct (fmul_R a b FA FB) as [F V]. { apply below. rewrite Rabs_pos_eq by lra. eapply Rle_trans; [apply P|]. apply bpow_le. exact L. }
  split; [exact F|]. rewrite V. split; [apply rnd_ge; [|apply P]; change 1 with (IZR 1); apply int_fmt; lia|]. apply rnd_le_fmt; [|apply P]. apply generic_format_bpow. cbn. unfold FLT_exp. lia.
Qed.
Lemma small_le n k : small n -> (k < n)%nat -> 1 <= INR (n - k) <= bpow radix2 53.
Proof. intros S L. split; [change 1 with (INR 1); apply le_INR; lia|]. rewrite INR_IZR_INZ. change (bpow radix2 53) with (IZR (2 ^ 53)). apply IZR_le. unfold small in S. lia. Qed.

(** ** The properties *)
Theorem skewness64_odd neg l k s r : Forall2 (fun x y => fin x /\ fin y /\ val y = - val x) l k -> small (length l) -> standard_deviation64 neg l = Ret s -> 0 < val s ->
  skewness64 neg l = Ret r -> fin r -> exists r', skewness64 neg k = Ret r' /\ fin r' /\ val r' = - val r.
Proof.
  intros H0 S ES P E FR. assert (C : sgn (-1)) by (right; reflexivity). assert (H : Forall2 (same (-1)) l k) by (clear - H0; induction H0 as [|x y l k (A & B & V) H IH]; constructor; [intros _; split; [exact B|lra]|exact IH]). clear H0. pose proof (two_length _ _ _ H) as L.
  unfold skewness64 in *. rewrite <- L. destruct (Nat.ltb_spec 2 (length l)) as [L2|]; [|discriminate E]. cbn [assertb] in *. destruct (mean64 neg l) as [m| |] eqn:EM; try discriminate E. destruct (same_mean _ neg l k m C H S EM) as (m' & -> & MM). rewrite ES in E. destruct (same_sd _ neg l k s C H S ES P) as (s' & -> & VS). cbn [bind] in *. eexists. split; [reflexivity|].
  match type of E with Ret ?x = _ => assert (ER : r = x) by (injection E; intros <-; reflexivity) end. clear E. subst r. destruct (minus_val (length l) 1 one S (proj1 one_R) (proj2 one_R) ltac:(lia)) as [F1 V1]. destruct (minus_val (length l) 2 two S (proj1 two_R)) as [F2 V2]; [rewrite (proj2 two_R); reflexivity|lia|].
  destruct (mul_ge _ _ 53 53 F1 F2) as [_ [D _]]; try lia; [rewrite V1; apply small_le; [exact S|lia]|rewrite V2; apply small_le; [exact S|lia]|].
  match goal with |- fin ?y /\ val ?y = - val ?x => assert (SM : same (-1) x y) end; [|destruct (SM FR) as [Y V]; split; [exact Y|lra]].
  apply same_div; [exact C| |lra|reflexivity]. replace (-1) with (-1 * 1) by ring. apply same_mul; [exact C|left; reflexivity| |apply same_refl]. apply same_sum; [exact C|]. apply (same_map (same (-1)) _ _ _ _ _ (same_scores _ m m' s s' l k C H MM P VS)). intros x y XY. unfold cube64. replace (-1) with (-1 * -1 * -1) by ring. apply same_mul; [left; ring|exact C| |exact XY]. apply same_mul; assumption.
Qed.
Print Assumptions skewness64_odd.
Theorem kurtosis64_even neg l k s r : Forall2 (fun x y => fin x /\ fin y /\ val y = - val x) l k -> small (length l) -> standard_deviation64 neg l = Ret s -> 0 < val s ->
  kurtosis64 neg l = Ret r -> fin r -> exists r', kurtosis64 neg k = Ret r' /\ fin r' /\ val r' = val r.
Proof.
  intros H0 S ES P E FR. assert (C : sgn (-1)) by (right; reflexivity). assert (C1 : sgn 1) by (left; reflexivity). assert (H : Forall2 (same (-1)) l k) by (clear - H0; induction H0 as [|x y l k (A & B & V) H IH]; constructor; [intros _; split; [exact B|lra]|exact IH]). clear H0. pose proof (two_length _ _ _ H) as L.
  unfold kurtosis64 in *. rewrite <- L. destruct (Nat.ltb_spec 3 (length l)) as [L2|]; [|discriminate E]. cbn [assertb] in *. destruct (mean64 neg l) as [m| |] eqn:EM; try discriminate E. destruct (same_mean _ neg l k m C H S EM) as (m' & -> & MM). rewrite ES in E. destruct (same_sd _ neg l k s C H S ES P) as (s' & -> & VS). cbn [bind] in *. eexists. split; [reflexivity|].
  match type of E with Ret ?x = _ => assert (ER : r = x) by (injection E; intros <-; reflexivity) end. clear E. subst r. destruct (minus_val (length l) 1 one S (proj1 one_R) (proj2 one_R) ltac:(lia)) as [F1 V1]. destruct (minus_val (length l) 2 two S (proj1 two_R)) as [F2 V2]; [rewrite (proj2 two_R); reflexivity|lia|].
  assert (T3 : fin (lit 3 0) /\ val (lit 3 0) = 3) by (apply int_lit; cbn; discriminate). destruct (minus_val (length l) 3 (lit 3 0) S (proj1 T3)) as [F3 V3]; [rewrite (proj2 T3); cbn; ring|lia|].
  destruct (mul_ge _ _ 53 53 F1 F2) as [F12 [D D']]; try lia; [rewrite V1; apply small_le; [exact S|lia]|rewrite V2; apply small_le; [exact S|lia]|]. destruct (mul_ge _ _ 106 53 F12 F3) as [_ [D3 _]]; try lia; [split; [exact D|exact D']|rewrite V3; apply small_le; [exact S|lia]|].
  match goal with |- fin ?y /\ val ?y = val ?x => assert (SM : same 1 x y) end; [|destruct (SM FR) as [Y V]; split; [exact Y|lra]].
  apply same_sub; [exact C1| |apply same_refl]. apply same_div; [exact C1| |lra|reflexivity]. replace 1 with (1 * 1) by ring. apply same_mul; [exact C1|exact C1| |apply same_refl]. replace 1 with (1 * 1) by ring. apply same_mul; [exact C1|exact C1| |apply same_refl].
  apply same_sum; [exact C1|]. apply (same_map (same (-1)) _ _ _ _ _ (same_scores _ m m' s s' l k C H MM P VS)). intros x y XY. unfold fourth64, sq64. replace 1 with (-1 * -1 * (-1 * -1)) by ring. apply same_mul; [left; ring|left; ring| |]; apply same_mul; assumption.
Qed.
Print Assumptions kurtosis64_even.
(** They panic exactly on short samples. *)
Theorem skew_kurt64_domain neg l : ((exists r, skewness64 neg l = Ret r) \/ skewness64 neg l = Panic) /\ (skewness64 neg l = Panic <-> (length l < 3)%nat) /\
  ((exists r, kurtosis64 neg l = Ret r) \/ kurtosis64 neg l = Panic) /\ (kurtosis64 neg l = Panic <-> (length l < 4)%nat).
Proof.
  assert (M : (2 <= length l)%nat -> (exists m, mean64 neg l = Ret m) /\ exists s, standard_deviation64 neg l = Ret s).
  { intros L. unfold standard_deviation64, sample_variance64, mean64, nonempty. destruct (Nat.eqb_spec (length l) 0); [lia|]. destruct (Nat.ltb_spec 1 (length l)); [|lia]. cbn. split; eexists; reflexivity. }
  unfold skewness64, kurtosis64. split; [|split; [|split]].
  - destruct (Nat.ltb_spec 2 (length l)); [left|right; reflexivity]. destruct M as [[m ->] [s ->]]; [lia|]. eexists. reflexivity.
  - destruct (Nat.ltb_spec 2 (length l)); [|split; [intros _; lia|reflexivity]]. destruct M as [[m ->] [s ->]]; [lia|]. split; [discriminate|lia].
  - destruct (Nat.ltb_spec 3 (length l)); [left|right; reflexivity]. destruct M as [[m ->] [s ->]]; [lia|]. eexists. reflexivity.
  - destruct (Nat.ltb_spec 3 (length l)); [|split; [intros _; lia|reflexivity]]. destruct M as [[m ->] [s ->]]; [lia|]. split; [discriminate|lia].
Qed.
Print Assumptions skew_kurt64_domain.
(** A sample whose deviation rounds to zero has no finite skewness or kurtosis, and no panic. *)
Lemma div_zero x s : fin s -> val s = 0 -> ~ fin (fdiv x s).
Proof.
  intros F V H. destruct s as [b|b| |b m e E]; try discriminate F; [destruct x as [a|a| |a m e E]; destruct b; try destruct a; discriminate H|]. unfold val in V. cbn in V. apply eq_0_F2R in V. destruct b; discriminate V.
Qed.
Lemma scores_bad m s l : fin s -> val s = 0 -> l <> [] -> exists z, In z (scores64 m s l) /\ ~ fin z.
Proof. intros F V N. destruct l as [|x l]; [congruence|]. exists (fdiv (fsub x m) s). split; [left; reflexivity|apply div_zero; assumption]. Qed.
Theorem skew_kurt64_constant neg l s r : standard_deviation64 neg l = Ret s -> fin s -> val s = 0 -> small (length l) ->
  (skewness64 neg l = Ret r \/ kurtosis64 neg l = Ret r) -> ~ fin r.
Proof.
  intros ES FS VS S [E|E] FR.
  - unfold skewness64 in E. destruct (Nat.ltb_spec 2 (length l)) as [L2|]; [|discriminate E]. cbn [assertb] in E. destruct (mean64 neg l) as [m| |]; try discriminate E. rewrite ES in E. cbn [bind] in E. match type of E with Ret ?x = _ => assert (ER : r = x) by (injection E; intros <-; reflexivity) end. clear E. subst r.
    destruct (minus_val (length l) 1 one S (proj1 one_R) (proj2 one_R) ltac:(lia)) as [F1 V1]. destruct (minus_val (length l) 2 two S (proj1 two_R)) as [F2 V2]; [rewrite (proj2 two_R); reflexivity|lia|].
    destruct (mul_ge _ _ 53 53 F1 F2) as [_ [D _]]; try lia; [rewrite V1; apply small_le; [exact S|lia]|rewrite V2; apply small_le; [exact S|lia]|].
    apply fdiv_fin in FR; [|lra]. destruct FR as [FR _]. apply fmul_fin in FR. destruct FR as [FR _]. destruct (sum_error neg _ FR) as [FA _]. destruct (scores_bad m s l FS VS) as (z & Z & BZ); [intros ->; cbn in L2; lia|]. apply BZ. pose proof (proj1 (Forall_forall _ _) FA (cube64 z) (in_map _ _ _ Z)) as FZ. apply (fmul_fin _ _ FZ).
  - unfold kurtosis64 in E. destruct (Nat.ltb_spec 3 (length l)) as [L2|]; [|discriminate E]. cbn [assertb] in E. destruct (mean64 neg l) as [m| |]; try discriminate E. rewrite ES in E. cbn [bind] in E. match type of E with Ret ?x = _ => assert (ER : r = x) by (injection E; intros <-; reflexivity) end. clear E. subst r.
    destruct (minus_val (length l) 1 one S (proj1 one_R) (proj2 one_R) ltac:(lia)) as [F1 V1]. destruct (minus_val (length l) 2 two S (proj1 two_R)) as [F2 V2]; [rewrite (proj2 two_R); reflexivity|lia|].
    assert (T3 : fin (lit 3 0) /\ val (lit 3 0) = 3) by (apply int_lit; cbn; discriminate). destruct (minus_val (length l) 3 (lit 3 0) S (proj1 T3)) as [F3 V3]; [rewrite (proj2 T3); cbn; ring|lia|].
    destruct (mul_ge _ _ 53 53 F1 F2) as [F12 [D D']]; try lia; [rewrite V1; apply small_le; [exact S|lia]|rewrite V2; apply small_le; [exact S|lia]|]. destruct (mul_ge _ _ 106 53 F12 F3) as [_ [D3 _]]; try lia; [split; [exact D|exact D']|rewrite V3; apply small_le; [exact S|lia]|].
    apply fsub_fin in FR. destruct FR as [FR _]. apply fdiv_fin in FR; [|lra]. destruct FR as [FR _]. apply fmul_fin in FR. destruct FR as [FR _]. apply fmul_fin in FR. destruct FR as [FR _]. destruct (sum_error neg _ FR) as [FA _]. destruct (scores_bad m s l FS VS) as (z & Z & BZ); [intros ->; cbn in L2; lia|]. apply BZ. pose proof (proj1 (Forall_forall _ _) FA (fourth64 z) (in_map _ _ _ Z)) as FZ. apply fmul_fin in FZ. destruct FZ as [FZ _]. apply (fmul_fin _ _ FZ).
Qed.
Print Assumptions skew_kurt64_constant.
(** cases: three zeros and a four have deviation 2, skewness 2 and kurtosis 4, exactly; a constant sample has deviation 0 *)
Example skew_kurt64_case : match standard_deviation64 false [zero; zero; zero; lit 4 0], skewness64 false [zero; zero; zero; lit 4 0], kurtosis64 false [zero; zero; zero; lit 4 0] with Ret s, Ret a, Ret b => (feq s two && feq a two && feq b (lit 4 0))%bool | _, _, _ => false end = true.
Proof. vm_compute. reflexivity. Qed.
Example skew_kurt64_reflected : match skewness64 false [zero; zero; zero; lit (-4) 0], kurtosis64 false [zero; zero; zero; lit (-4) 0] with Ret a, Ret b => (feq a (lit (-2) 0) && feq b (lit 4 0))%bool | _, _ => false end = true.
Proof. vm_compute. reflexivity. Qed.
Example skew64_constant_case : match standard_deviation64 false [one; one; one], skewness64 false [one; one; one] with Ret s, Ret r => (feq s zero && negb (is_finite r))%bool | _, _ => false end = true.
Proof. vm_compute. reflexivity. Qed.
