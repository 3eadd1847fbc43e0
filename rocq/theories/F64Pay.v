(** C103: option payoffs and Monte-Carlo prices computed with binary64 arithmetic. *)
From Coq Require Import ZArith Reals Lra Lia List Bool Psatz.
From Flocq Require Import Core.Core IEEE754.BinarySingleNaN Sterbenz.
From Verif Require Import Res InterpModel RList StatModel PayoffModel F64Model F64Base F64Sum F64Order F64PayModel.
Import ListNotations.
Open Scope R_scope.

(** ** The positive part *)
Lemma fpos_num x : num (fpos x) /\ fle zero (fpos x) = true /\ (num x -> ext (fpos x) = Rmax (ext x) 0) /\ (~ num x -> fpos x = zero).
Proof.
  assert (Z : num zero) by reflexivity. unfold fpos, fmax. destruct (is_nan x) eqn:N.
  - split; [reflexivity|]. split; [reflexivity|]. split; [intros H; unfold num in H; congruence|reflexivity].
  - assert (X : num x) by exact N. change (is_nan zero) with false. cbv iota. destruct (flt x zero) eqn:L.
    + apply (flt_ext x zero X Z) in L. change (ext zero) with 0 in L. split; [reflexivity|]. split; [reflexivity|]. split; [intros _; change (ext zero) with 0; rewrite Rmax_right; lra|intros H; elim H; exact X].
    + assert (G : 0 <= ext x). { apply Rnot_lt_le. intros C. assert (flt x zero = true) by (apply (flt_ext x zero X Z); exact C). congruence. }
      split; [exact X|]. split; [apply (fle_ext zero x Z X); exact G|]. split; [intros _; rewrite Rmax_left; lra|intros H; elim H; exact X].
Qed.
Lemma fpos_fin x : fin x -> fin (fpos x) /\ val (fpos x) = Rmax (val x) 0.
Proof.
  intros X. assert (F : fin (fpos x)). { unfold fpos, fmax. rewrite (fin_num x X). change (is_nan zero) with false. cbv iota. destruct (flt x zero); [reflexivity|exact X]. }
  split; [exact F|]. destruct (fpos_num x) as (_ & _ & E & _). rewrite <- (ext_fin _ F), (E (fin_num x X)), (ext_fin x X). reflexivity.
Qed.
Lemma rnd_max x : rnd (Rmax x 0) = Rmax (rnd x) 0.
Proof.
  unfold Rmax at 1. destruct (Rle_dec x 0) as [H|H].
  - rewrite rnd_0, Rmax_right; [reflexivity|]. rewrite <- rnd_0. apply rnd_le, H.
  - rewrite Rmax_left; [reflexivity|]. rewrite <- rnd_0. apply rnd_le. lra.
Qed.
Lemma diff_pos s k : fin (fsub s k) -> fin (fpos (fsub s k)) /\ val (fpos (fsub s k)) = rnd (Rmax (val s - val k) 0).
Proof. intros F. destruct (fpos_fin _ F) as [A B]. destruct (fsub_fin _ _ F) as (_ & _ & E & _). split; [exact A|]. rewrite B, E, rnd_max. reflexivity. Qed.
(** prices are not negative: their differences do not overflow *)
Lemma price_diff s k : fin s -> fin k -> 0 <= val s -> 0 <= val k -> fin (fsub s k).
Proof.
  intros S K s0 k0. apply fsub_R; [exact S|exact K|]. pose proof (val_lt s) as A. pose proof (val_lt k) as B. rewrite Rabs_pos_eq in A, B by assumption.
  apply (between_lt (- val k) (val s)); [rewrite Rabs_Ropp, Rabs_pos_eq; assumption|rewrite Rabs_pos_eq; assumption|]. split; [apply rnd_ge; [apply fmt_opp, val_fmt|lra]|apply rnd_le_fmt; [apply val_fmt|lra]].
Qed.
Lemma rnd_diff_zero x y : fmt x -> fmt y -> rnd (x - y) = 0 -> x = y.
Proof.
  intros X Y H. destruct (rnd_minus_err x y X Y) as (e & He & E). rewrite E in H. apply Rmult_integral in H. pose proof u_small. apply Rabs_le_inv in He. lra.
Qed.

(** ** Vanilla options *)
(** the payoff is the exact one, rounded once; it is exact when the price is within a factor two of
    the strike, positive exactly in the money, and call minus put is the rounded difference *)
Theorem vanilla64_rounded : forall k s, fin k -> fin s -> 0 <= val k -> 0 <= val s ->
  (forall tf, fin (vanilla64 tf k s) /\ val (vanilla64 tf k s) = rnd (vanilla_payoff tf (val k) (val s))) /\
  (val k / 2 <= val s <= 2 * val k -> forall tf, val (vanilla64 tf k s) = vanilla_payoff tf (val k) (val s)) /\
  (0 < val (vanilla64 Call k s) <-> val k < val s) /\ (0 < val (vanilla64 Put k s) <-> val s < val k) /\
  val (vanilla64 Call k s) - val (vanilla64 Put k s) = rnd (val s - val k).
Proof.
  intros k s K S k0 s0. pose proof (price_diff s k S K s0 k0) as D1. pose proof (price_diff k s K S k0 s0) as D2.
  destruct (diff_pos s k D1) as [F1 V1]. destruct (diff_pos k s D2) as [F2 V2]. pose proof (val_fmt k) as Fk. pose proof (val_fmt s) as Fs.
  split; [intros []; split; assumption|]. unfold vanilla64. rewrite V1, V2. split; [|split; [|split]].
  - intros R. assert (G : rnd (val s - val k) = val s - val k) by (apply rnd_id, sterbenz; try typeclasses eauto; try assumption; lra).
    assert (G' : rnd (val k - val s) = val k - val s) by (replace (val k - val s) with (- (val s - val k)) by ring; apply rnd_id, fmt_opp; rewrite <- G; apply rnd_fmt).
    intros []; cbn [vanilla_payoff]; rewrite ?V1, ?V2, rnd_max, ?G, ?G'; reflexivity.
  - rewrite rnd_max. split.
    + intros H. apply Rnot_le_lt. intros C. rewrite Rmax_right in H; [lra|]. rewrite <- rnd_0. apply rnd_le. lra.
    + intros H. apply Rlt_le_trans with (rnd (val s - val k)); [|apply Rmax_l]. assert (G : 0 <= rnd (val s - val k)) by (rewrite <- rnd_0; apply rnd_le; lra). destruct G as [G|G]; [exact G|]. symmetry in G. apply rnd_diff_zero in G; [lra|assumption|assumption].
  - rewrite rnd_max. split.
    + intros H. apply Rnot_le_lt. intros C. rewrite Rmax_right in H; [lra|]. rewrite <- rnd_0. apply rnd_le. lra.
    + intros H. apply Rlt_le_trans with (rnd (val k - val s)); [|apply Rmax_l]. assert (G : 0 <= rnd (val k - val s)) by (rewrite <- rnd_0; apply rnd_le; lra). destruct G as [G|G]; [exact G|]. symmetry in G. apply rnd_diff_zero in G; [lra|assumption|assumption].
  - destruct (Rle_dec (val s) (val k)) as [C|C].
    + rewrite Rmax_right, Rmax_left, rnd_0 by lra. replace (val k - val s) with (- (val s - val k)) by ring. unfold rnd. rewrite round_NE_opp. ring.
    + rewrite Rmax_left, Rmax_right, rnd_0 by lra. ring.
Qed.
Print Assumptions vanilla64_rounded.
Example vanilla64_meets : fin (lit 110 0) /\ 0 <= val (lit 110 0) /\ feq (vanilla64 Call (lit 100 0) (lit 110 0)) (lit 10 0) = true /\ flt zero (vanilla64 Call (lit 1 (-1074)) (lit 3 (-1074))) = true.
Proof. split; [reflexivity|]. split; [apply lit_nonneg; lia|]. split; vm_compute; reflexivity. Qed.
(** on all inputs: never NaN, never negative, monotone in the price *)
Theorem vanilla64_total : forall tf k s s', num (vanilla64 tf k s) /\ fle zero (vanilla64 tf k s) = true /\
  (fin k -> fin s -> fin s' -> val s <= val s' -> fin (fsub s k) -> fin (fsub s' k) -> fin (fsub k s) -> fin (fsub k s') ->
     val (vanilla64 Call k s) <= val (vanilla64 Call k s') /\ val (vanilla64 Put k s') <= val (vanilla64 Put k s)).
Proof.
  intros tf k s s'. split; [destruct tf; apply fpos_num|]. split; [destruct tf; apply fpos_num|]. intros K S S' L D1 D2 D3 D4. unfold vanilla64.
  rewrite (proj2 (diff_pos _ _ D1)), (proj2 (diff_pos _ _ D2)), (proj2 (diff_pos _ _ D3)), (proj2 (diff_pos _ _ D4)). split; apply rnd_le; apply Rle_max_compat_r; lra.
Qed.
Print Assumptions vanilla64_total.
Example vanilla64_total_meets : fin (fsub (lit 90 0) (lit 100 0)) /\ fin (fsub (lit 110 0) (lit 100 0)) /\ num (vanilla64 Call nan pinf). Proof. repeat split; vm_compute; reflexivity. Qed.
(** a price that could not be computed pays nothing, as call and as put; so does an infinite
    price with an infinite strike *)
Theorem payoff_nan_refuted : (forall tf k, vanilla64 tf k nan = zero) /\ (forall tf s, vanilla64 tf nan s = zero) /\ (forall tf, vanilla64 tf pinf pinf = zero) /\
  (forall bt tf k, binary64 bt tf k nan = zero) /\ (forall k1 k2, supershare64 k1 k2 nan = zero).
Proof.
  split; [|split; [|split; [|split]]].
  - intros tf k. destruct tf; destruct k; reflexivity. - intros tf s. destruct tf; destruct s; reflexivity. - intros []; reflexivity.
  - intros bt tf k. destruct bt, tf; destruct k; reflexivity.
  - intros k1 k2. unfold supershare64. assert (E : fle k1 nan = false) by (destruct k1; reflexivity). rewrite E. reflexivity.
Qed.
Print Assumptions payoff_nan_refuted.

(** ** Binary and supershare options *)
Theorem binary64_exact : forall bt tf k s, fin k -> fin s -> val (binary64 bt tf k s) = binary_payoff bt tf (val k) (val s) /\ fin (binary64 bt tf k s).
Proof.
  intros bt tf k s K S. assert (G : forall x y (z : f64), fin x -> fin y -> fin z -> val (if flt x y then z else zero) = (if Rltb (val x) (val y) then val z else 0) /\ fin (if flt x y then z else zero)).
  { intros x y z X Y Z. unfold Rltb. destruct (Rlt_dec (val x) (val y)) as [C|C].
    - rewrite (proj2 (flt_R x y X Y) C). split; [reflexivity|exact Z].
    - destruct (flt x y) eqn:E; [apply (flt_R x y X Y) in E; contradiction|]. split; reflexivity. }
  destruct bt, tf; apply G; assumption.
Qed.
Print Assumptions binary64_exact.
Theorem supershare64_rounded : forall k1 k2 s, fin k1 -> fin k2 -> fin s -> 0 < val k1 -> fin (supershare64 k1 k2 s) ->
  exists r, supershare_payoff (val k1) (val k2) (val s) = Some r /\ val (supershare64 k1 k2 s) = rnd r.
Proof.
  intros k1 k2 s K1 K2 S P. unfold supershare64, supershare_payoff.
  assert (G : forall x y, fin x -> fin y -> fle x y = Rleb (val x) (val y)).
  { intros x y X Y. unfold Rleb. destruct (Rle_dec (val x) (val y)) as [C|C]; [apply fle_R; assumption|]. apply not_true_iff_false. intros E. apply (fle_R x y X Y) in E. contradiction. }
  rewrite !G by assumption. destruct (Rleb (val k1) (val s) && Rleb (val s) (val k2)).
  - intros F. destruct (fdiv_fin s k1 ltac:(lra) F) as (_ & V & _). exists (val s / val k1). split; [|exact V]. unfold StatModel.fdiv. unfold Reqb. destruct (Req_EM_T (val k1) 0); [lra|reflexivity].
  - intros _. exists 0. split; [reflexivity|]. rewrite rnd_0. reflexivity.
Qed.
Print Assumptions supershare64_rounded.
Example binary64_meets : fin one /\ 0 < val one /\ feq (binary64 AssetOrNothing Call one two) two = true /\ fin (supershare64 one two one).
Proof. rewrite (proj2 one_R). repeat split; try lra; vm_compute; reflexivity. Qed.

(** ** Barrier options *)
(** A knock-in and the matching knock-out: one of them is the vanilla payoff and the other is
    zero, on every path, NaN or not. *)
Theorem barrier64_parity : forall tf b k rebate path, path <> [] -> exists t, last64 path = Some t /\
  forall i o, (i = UpAndIn /\ o = UpAndOut) \/ (i = DownAndIn /\ o = DownAndOut) ->
  exists x y, barrier64 i tf b k rebate path = Ret x /\ barrier64 o tf b k rebate path = Ret y /\
    ((x = vanilla64 tf k t /\ y = zero) \/ (x = zero /\ y = vanilla64 tf k t)) /\
    (x = vanilla64 tf k t /\ y = zero <-> (exists p, In p path /\ num p /\ num b /\ (i = UpAndIn -> ext b <= ext p) /\ (i = DownAndIn -> ext p <= ext b)) \/ (vanilla64 tf k t = zero)) /\
    feq (fadd x y) (vanilla64 tf k t) = true.
Proof.
  intros tf b k rebate path NE. assert (LT : exists t, last64 path = Some t).
  { unfold last64. destruct (nth_error path (length path - 1)) eqn:E; [eauto|]. apply nth_error_None in E. destruct path; [congruence|cbn in E; lia]. }
  destruct LT as [t Ht]. exists t. split; [exact Ht|]. intros i o HO. unfold barrier64. rewrite Ht. cbn [unwrap bind].
  assert (VP : match tf with Call => fpos (fsub t k) | Put => fpos (fsub k t) end = vanilla64 tf k t) by (destruct tf; reflexivity). rewrite VP. set (v := vanilla64 tf k t).
  assert (NV : num v) by (destruct tf; apply fpos_num). assert (GV : fle zero v = true) by (destruct tf; apply fpos_num).
  assert (Z1 : feq (fadd v zero) v = true /\ feq (fadd zero v) v = true).
  { destruct v as [s|s| |s m e Hb] eqn:V; [destruct s; split; reflexivity|destruct s; split; reflexivity|discriminate NV|].
    assert (Fv : fin (B754_finite s m e Hb : f64)) by reflexivity.
    assert (A : fin (fadd (B754_finite s m e Hb : f64) zero) /\ val (fadd (B754_finite s m e Hb : f64) zero) = rnd (val (B754_finite s m e Hb : f64) + 0)) by (apply (fadd_R _ zero Fv eq_refl); change (val zero) with 0; rewrite Rplus_0_r, rnd_id by apply val_fmt; apply val_lt).
    assert (B : fin (fadd zero (B754_finite s m e Hb : f64)) /\ val (fadd zero (B754_finite s m e Hb : f64)) = rnd (0 + val (B754_finite s m e Hb : f64))) by (apply (fadd_R zero _ eq_refl Fv); change (val zero) with 0; rewrite Rplus_0_l, rnd_id by apply val_fmt; apply val_lt).
    split; apply feq_R; try apply A; try apply B; try exact Fv; [rewrite (proj2 A), Rplus_0_r|rewrite (proj2 B), Rplus_0_l]; apply rnd_id, val_fmt. }
  assert (EX : forall p : f64 -> bool, existsb p path = true <-> exists q, In q path /\ p q = true) by (intros p; apply existsb_exists).
  assert (UPS : existsb (fun x => fle b x) path = true <-> exists q, In q path /\ num q /\ num b /\ ext b <= ext q).
  { rewrite EX. split; intros (q & Hq & C); exists q; (split; [exact Hq|]); [destruct (fle_num _ _ C) as [Nb Nq]; repeat split; try assumption; apply (fle_ext b q Nb Nq); exact C|destruct C as (Nq & Nb & C); apply (fle_ext b q Nb Nq); exact C]. }
  assert (DNS : existsb (fun x => fle x b) path = true <-> exists q, In q path /\ num q /\ num b /\ ext q <= ext b).
  { rewrite EX. split; intros (q & Hq & C); exists q; (split; [exact Hq|]); [destruct (fle_num _ _ C) as [Nq Nb]; repeat split; try assumption; apply (fle_ext q b Nq Nb); exact C|destruct C as (Nq & Nb & C); apply (fle_ext q b Nq Nb); exact C]. }
  destruct HO as [[-> ->]|[-> ->]].
  - destruct (existsb (fun x => fle b x) path) eqn:E; eexists; eexists; (split; [reflexivity|split; [reflexivity|]]).
    + split; [left; split; reflexivity|]. split; [|apply Z1]. split; [|intros _; split; reflexivity]. intros _. left. destruct (proj1 UPS eq_refl) as (q & A & B & C & D). exists q. repeat split; try assumption; intros; [assumption|discriminate].
    + split; [right; split; reflexivity|]. split; [|apply Z1]. split; [intros [A _]; right; symmetry; exact A|]. intros [(q & A & B & C & D & _)|A]; [|rewrite A; split; reflexivity]. assert (false = true) by (apply UPS; exists q; auto). discriminate.
  - destruct (existsb (fun x => fle x b) path) eqn:E; eexists; eexists; (split; [reflexivity|split; [reflexivity|]]).
    + split; [left; split; reflexivity|]. split; [|apply Z1]. split; [|intros _; split; reflexivity]. intros _. left. destruct (proj1 DNS eq_refl) as (q & A & B & C & D). exists q. repeat split; try assumption; intros; [discriminate|assumption].
    + split; [right; split; reflexivity|]. split; [|apply Z1]. split; [intros [A _]; right; symmetry; exact A|]. intros [(q & A & B & C & _ & D)|A]; [|rewrite A; split; reflexivity]. assert (false = true) by (apply DNS; exists q; auto). discriminate.
Qed.
Print Assumptions barrier64_parity.
Example barrier64_meets : [lit 100 0; lit 120 0; lit 110 0] <> [] /\
  match barrier64 UpAndIn Call (lit 115 0) (lit 100 0) None [lit 100 0; lit 120 0; lit 110 0] with Ret x => feq x (lit 10 0) | _ => false end = true /\
  match barrier64 UpAndOut Call (lit 115 0) (lit 100 0) None [lit 100 0; lit 120 0; lit 110 0] with Ret x => feq x zero | _ => false end = true.
Proof. split; [discriminate|]. split; vm_compute; reflexivity. Qed.

Lemma last64_map path : last_opt (map val path) = option_map val (last64 path).
Proof. unfold last_opt, last64. rewrite map_length, nth_error_map. reflexivity. Qed.
Lemma last64_in path t : last64 path = Some t -> In t path.
Proof. apply nth_error_In. Qed.
Lemma last64_some path : path <> [] -> exists t, last64 path = Some t.
Proof. intros NE. unfold last64. destruct (nth_error path (length path - 1)) eqn:E; [eauto|]. apply nth_error_None in E. destruct path; [congruence|cbn in E; lia]. Qed.
Lemma fle_val x y : fin x -> fin y -> fle x y = Rleb (val x) (val y).
Proof. intros X Y. unfold Rleb. destruct (Rle_dec (val x) (val y)) as [C|C]; [apply fle_R; assumption|]. apply not_true_iff_false. intros E. apply (fle_R x y X Y) in E. contradiction. Qed.

(** a path of prices *)
Definition prices (path : list f64) : Prop := List.Forall (fun x => fin x /\ 0 <= val x) path.
Lemma prices_in path x : prices path -> In x path -> fin x /\ 0 <= val x.
Proof. intros P. apply (proj1 (Forall_forall _ _) P). Qed.

(** the knock-out and knock-in payoffs are the exact ones, rounded once: the barrier test makes no
    error *)
Theorem barrier64_rounded : forall bt tf b k rebate path, fin b -> fin k -> 0 <= val k -> prices path -> path <> [] ->
  exists p r, barrier64 bt tf b k rebate path = Ret p /\ fin p /\ barrier_payoff bt tf (val b) (val k) (option_map val rebate) (map val path) = Ret r /\ val p = rnd r.
Proof.
  intros bt tf b k rebate path B K k0 P NE. destruct (last64_some path NE) as [t Ht]. destruct (prices_in path t P (last64_in _ _ Ht)) as [T t0].
  unfold barrier64, barrier_payoff. rewrite last64_map, Ht. cbn [option_map unwrap bind].
  assert (G : forall q (q' : R -> bool), (forall x, In x path -> q x = q' (val x)) -> existsb q path = existsb q' (map val path)).
  { intros q q' H. clear -H. induction path as [|x l IH]; [reflexivity|]. cbn. rewrite (H x (or_introl eq_refl)), IH; [reflexivity|]. intros y Hy. apply H. right. exact Hy. }
  rewrite (G (fun x => fle b x) (fun x => Rleb (val b) x)) by (intros x Hx; apply fle_val; [exact B|apply (prices_in path x P Hx)]).
  rewrite (G (fun x => fle x b) (fun x => Rleb x (val b))) by (intros x Hx; apply fle_val; [apply (prices_in path x P Hx)|exact B]).
  assert (V : fin (match tf with Call => fpos (fsub t k) | Put => fpos (fsub k t) end) /\ val (match tf with Call => fpos (fsub t k) | Put => fpos (fsub k t) end) = rnd (match tf with Call => Rmax (val t - val k) 0 | Put => Rmax (val k - val t) 0 end)).
  { destruct tf; apply diff_pos, price_diff; assumption. }
  destruct V as [V1 V2]. pose proof rnd_0 as Z. destruct bt; match goal with |- context [if ?c then _ else _] => destruct c end; eexists; eexists; (split; [reflexivity|split; [first [exact V1|reflexivity]|split; [reflexivity|first [exact V2|symmetry; exact Z]]]]).
Qed.
Print Assumptions barrier64_rounded.
Example barrier64_rounded_meets : fin (lit 115 0) /\ prices [lit 100 0; lit 120 0; lit 110 0].
Proof. split; [reflexivity|]. unfold prices. repeat (apply Forall_cons; [split; [reflexivity|apply lit_nonneg; lia]|]). apply Forall_nil. Qed.

(** ** Lookback options *)
Lemma tle_fin nneg x y : fin x -> fin y -> if tle nneg x y then val x <= val y else val y <= val x.
Proof.
  intros X Y. unfold tle. pose proof (fin_num x X) as NX. pose proof (fin_num y Y) as NY. unfold num in NX, NY.
  replace (is_nan (if nneg then x else y)) with false by (destruct nneg; auto). replace (is_nan (if nneg then y else x)) with false by (destruct nneg; auto).
  destruct (flt x y) eqn:L; cbn [orb]; [apply (flt_R x y X Y) in L; lra|]. destruct (feq x y) eqn:E; cbn [andb].
  - apply (feq_R x y X Y) in E. destruct (_ || _); lra.
  - apply Rnot_lt_le. intros C. apply (flt_R x y X Y) in C. congruence.
Qed.
Lemma tmax_fold nneg l : forall a, fin a -> List.Forall fin l -> let m := fold_left (fun a b => if tle nneg a b then b else a) l a in fin m /\ In m (a :: l) /\ val m = fold_left Rmax (map val l) (val a).
Proof.
  induction l as [|b l IH]; intros a A H; cbn; [split; [exact A|split; [left; reflexivity|reflexivity]]|]. inversion H as [|? ? B H' ]; subst. pose proof (tle_fin nneg a b A B) as T.
  destruct (tle nneg a b).
  - destruct (IH b B H') as (F1 & F2 & F3). split; [exact F1|]. split; [destruct F2; auto|]. rewrite Rmax_right by lra. exact F3.
  - destruct (IH a A H') as (F1 & F2 & F3). split; [exact F1|]. split; [destruct F2; auto|]. rewrite Rmax_left by lra. exact F3.
Qed.
Lemma tmin_fold nneg l : forall a, fin a -> List.Forall fin l -> let m := fold_left (fun a b => if tle nneg a b then a else b) l a in fin m /\ In m (a :: l) /\ val m = fold_left Rmin (map val l) (val a).
Proof.
  induction l as [|b l IH]; intros a A H; cbn; [split; [exact A|split; [left; reflexivity|reflexivity]]|]. inversion H as [|? ? B H' ]; subst. pose proof (tle_fin nneg a b A B) as T.
  destruct (tle nneg a b).
  - destruct (IH a A H') as (F1 & F2 & F3). split; [exact F1|]. split; [destruct F2; auto|]. rewrite Rmin_left by lra. exact F3.
  - destruct (IH b B H') as (F1 & F2 & F3). split; [exact F1|]. split; [destruct F2; auto|]. rewrite Rmin_right by lra. exact F3.
Qed.
Theorem lookback64_rounded : forall nneg sf tf k path, fin k -> 0 <= val k -> prices path -> path <> [] ->
  exists p r, lookback64 nneg sf tf (Some k) path = Ret p /\ fin p /\ lookback_payoff sf tf (Some (val k)) (map val path) = Ret r /\ val p = rnd r.
Proof.
  intros nneg sf tf k path K k0 P NE. destruct (last64_some path NE) as [t Ht]. destruct (prices_in path t P (last64_in _ _ Ht)) as [T t0].
  unfold lookback64, lookback_payoff. rewrite last64_map, Ht. cbn [option_map unwrap bind]. destruct path as [|a l]; [congruence|]. cbn [tmax tmin vmax vmin map bind].
  assert (FL : List.Forall fin l) by (inversion P as [|? ? ? Q]; subst; eapply Forall_impl; [|exact Q]; intros ? []; assumption). assert (A : fin a) by (inversion P as [|? ? [? ?] ?]; assumption).
  destruct (tmax_fold nneg l a A FL) as (M1 & M2 & M3). destruct (tmin_fold nneg l a A FL) as (N1 & N2 & N3). cbv zeta in *.
  set (mx := fold_left (fun a b => if tle nneg a b then b else a) l a) in *. set (mn := fold_left (fun a b => if tle nneg a b then a else b) l a) in *.
  destruct (prices_in _ _ P M2) as [_ M0]. destruct (prices_in _ _ P N2) as [_ N0]. rewrite <- M3, <- N3.
  destruct sf as [[]|]; destruct tf; eexists; eexists; (split; [reflexivity|]);
    match goal with |- fin (fpos (fsub ?x ?y)) /\ _ => destruct (diff_pos x y (price_diff x y ltac:(assumption) ltac:(assumption) ltac:(assumption) ltac:(assumption))) as [D1 D2] end;
    (split; [exact D1|split; [reflexivity|exact D2]]).
Qed.
Print Assumptions lookback64_rounded.
Example lookback64_meets : prices [lit 100 0; lit 120 0; lit 110 0] /\
  match lookback64 false (Some Floating) Put None [lit 100 0; lit 120 0; lit 110 0] with Ret x => feq x (lit 10 0) | _ => false end = true.
Proof. split; [apply barrier64_rounded_meets|vm_compute; reflexivity]. Qed.
(** One NaN in a path and, by its sign, either the two payoffs of the maximum or the two of the
    minimum are zero, whatever the strike and the other prices. *)
Lemma tle_nan_r x : is_nan x = false -> tle false x nan = true /\ tle false nan x = false /\ tle true nan x = true /\ tle true x nan = false.
Proof. intros H. unfold tle. rewrite H. repeat split. Qed.
Lemma nan_eq (x : f64) : is_nan x = true -> x = nan. Proof. destruct x; try discriminate; reflexivity. Qed.
Lemma tmax_nan l : forall a, In nan (a :: l) -> fold_left (fun a b => if tle false a b then b else a) l a = nan.
Proof.
  induction l as [|b l IH]; intros a [->|H]; try reflexivity; try destruct H; cbn.
  - apply IH. unfold tle. destruct (is_nan b) eqn:E; left; [apply nan_eq, E|reflexivity].
  - subst b. apply IH. left. reflexivity.
  - apply IH. right. exact H.
Qed.
Lemma tmin_nan l : forall a, In nan (a :: l) -> fold_left (fun a b => if tle true a b then a else b) l a = nan.
Proof.
  induction l as [|b l IH]; intros a [->|H]; try reflexivity; try destruct H; cbn.
  - apply IH. left. reflexivity.
  - subst b. apply IH. left. unfold tle. destruct (is_nan a) eqn:E; [apply nan_eq, E|reflexivity].
  - apply IH. right. exact H.
Qed.
Theorem lookback64_nan_refuted : forall path k, In nan path ->
  lookback64 false (Some Fixed) Call (Some k) path = Ret zero /\ lookback64 false (Some Floating) Put (Some k) path = Ret zero /\
  lookback64 true (Some Fixed) Put (Some k) path = Ret zero /\ lookback64 true (Some Floating) Call (Some k) path = Ret zero.
Proof.
  intros path k H. destruct (last64_some path) as [t Ht]; [intros ->; destruct H|]. unfold lookback64. rewrite Ht. cbn [unwrap bind]. destruct path as [|a l]; [destruct H|]. cbn [tmax tmin].
  rewrite (tmax_nan l a H), (tmin_nan l a H). repeat split; f_equal; try (destruct k; reflexivity); destruct t; reflexivity.
Qed.
Print Assumptions lookback64_nan_refuted.
Example lookback64_nan_meets : In nan [lit 100 0; nan; lit 110 0] /\ match lookback64 true (Some Fixed) Call (Some (lit 100 0)) [lit 100 0; nan; lit 110 0] with Ret x => feq x (lit 10 0) | _ => false end = true.
Proof. split; [right; left; reflexivity|vm_compute; reflexivity]. Qed.

(** ** Arithmetic Asian options *)
Lemma pos_lip x y : Rabs (Rmax x 0 - Rmax y 0) <= Rabs (x - y).
Proof. unfold Rmax. destruct (Rle_dec x 0), (Rle_dec y 0); unfold Rabs; repeat destruct Rcase_abs; lra. Qed.
Lemma near_pos x y z e d : Rabs d <= u -> Rabs (y - z) <= e -> x = y * (1 + d) -> Rabs (Rmax x 0 - Rmax z 0) <= (1 + u) * e + u * Rabs z.
Proof.
  intros D E ->. eapply Rle_trans; [apply pos_lip|]. replace (y * (1 + d) - z) with ((y - z) * (1 + d) + z * d) by ring. eapply Rle_trans; [apply Rabs_triang|]. rewrite !Rabs_mult.
  assert (Rabs (1 + d) <= 1 + u) by (eapply Rle_trans; [apply Rabs_triang|rewrite Rabs_R1; lra]). pose proof (Rabs_pos (y - z)). pose proof (Rabs_pos z). pose proof u_pos. pose proof (Rabs_pos (1 + d)). nra.
Qed.
Lemma exact_rsum path : exact path = rsum (map val path).
Proof. reflexivity. Qed.
Lemma mag_prices path : prices path -> mag path = exact path.
Proof. unfold mag, exact. induction 1 as [|x l [X x0] H IH]; [reflexivity|]. cbn. rewrite IH, Rabs_pos_eq by exact x0. reflexivity. Qed.
Theorem asian64_error : forall neg powf sf tf k path m, fin k -> 0 <= val k -> prices path -> small (length path) -> mean64 neg path = Ret m -> fin m ->
  exists p r t, asian64 neg powf ArithmeticDiscrete (Some sf) tf (Some k) path = Ret p /\ fin p /\ 0 <= val p /\
    asian_payoff ArithmeticDiscrete (Some sf) tf (Some (val k)) (map val path) = Ret r /\ last64 path = Some t /\
    let A := rsum (map val path) / INR (length path) in
    Rabs (val p - r) <= (1 + u) * (((1 + u) ^ length path - 1) * A + eta) + u * Rabs (A - match sf with Fixed => val k | Floating => val t end).
Proof.
  intros neg powf sf tf k path m K k0 P Sm M Fm. destruct (mean_error neg path m M Fm Sm) as [_ E].
  assert (NE : path <> []) by (intros ->; discriminate M). destruct (last64_some path NE) as [t Ht]. destruct (prices_in path t P (last64_in _ _ Ht)) as [T t0].
  assert (DM : fdiv (fsum neg path) (of_usize (length path)) = m) by (unfold mean64 in M; destruct path; [congruence|injection M; auto]).
  assert (m0 : 0 <= val m). { apply nn_val; [exact Fm|]. rewrite <- DM. apply nn_div, nn_sum. eapply Forall_impl; [|exact P]. intros x []; apply nn_fin; assumption. }
  rewrite (mag_prices path P), exact_rsum in E.
  unfold asian64, asian_payoff. rewrite last64_map, Ht. cbn [option_map unwrap bind]. rewrite DM.
  assert (LN : len (map val path) = INR (length path)) by (unfold len; rewrite map_length; reflexivity). rewrite LN. cbv zeta.
  set (A := rsum (map val path) / INR (length path)) in *.
  set (e := ((1 + u) ^ length path - 1) * A + eta) in *.
  assert (G : forall x y a b, fin x -> fin y -> 0 <= val x -> 0 <= val y -> Rabs (val x - val y - (a - b)) <= e ->
    fin (fpos (fsub x y)) /\ 0 <= val (fpos (fsub x y)) /\ Rabs (val (fpos (fsub x y)) - Rmax (a - b) 0) <= (1 + u) * e + u * Rabs (a - b)).
  { intros x y a b X Y x0 y0 D. pose proof (price_diff x y X Y x0 y0) as F. destruct (fpos_fin _ F) as [F1 F2]. split; [exact F1|]. split; [rewrite F2; apply Rmax_r|].
    rewrite F2. destruct (fsub_fin _ _ F) as (_ & _ & V & _). rewrite V. destruct (rnd_minus_err (val x) (val y) (val_fmt x) (val_fmt y)) as (d & Hd & R). eapply near_pos; [exact Hd|exact D|exact R]. }
  assert (E' : forall c, Rabs (c - val m - (c - A)) <= e) by (intros c; replace (c - val m - (c - A)) with (- (val m - A)) by ring; rewrite Rabs_Ropp; exact E).
  assert (E'' : forall c, Rabs (val m - c - (A - c)) <= e) by (intros c; replace (val m - c - (A - c)) with (val m - A) by ring; exact E).
  destruct sf, tf; eexists; eexists; exists t; (split; [reflexivity|]).
  - destruct (G m k A (val k) Fm K m0 k0 (E'' _)) as (F1 & F2 & F3). split; [exact F1|]. split; [exact F2|]. split; [reflexivity|]. split; [reflexivity|]. exact F3.
  - destruct (G k m (val k) A K Fm k0 m0 (E' _)) as (F1 & F2 & F3). split; [exact F1|]. split; [exact F2|]. split; [reflexivity|]. split; [reflexivity|]. rewrite (Rabs_minus_sym A). exact F3.
  - destruct (G t m (val t) A T Fm t0 m0 (E' _)) as (F1 & F2 & F3). split; [exact F1|]. split; [exact F2|]. split; [reflexivity|]. split; [reflexivity|]. rewrite (Rabs_minus_sym A). exact F3.
  - destruct (G m t A (val t) Fm T m0 t0 (E'' _)) as (F1 & F2 & F3). split; [exact F1|]. split; [exact F2|]. split; [reflexivity|]. split; [reflexivity|]. exact F3.
Qed.
Print Assumptions asian64_error.
Example asian64_meets : prices [lit 100 0; lit 120 0; lit 110 0] /\ small 3 /\ exists m, mean64 false [lit 100 0; lit 120 0; lit 110 0] = Ret m /\ fin m.
Proof. split; [apply barrier64_rounded_meets|]. split; [unfold small; lia|]. eexists. split; [reflexivity|vm_compute; reflexivity]. Qed.

(** ** The Monte-Carlo price *)
Lemma pays_length {A B} (Q : A -> B -> Prop) l l' : Forall2 Q l l' -> length l = length l'.
Proof. induction 1; cbn; congruence. Qed.
Lemma sum_payoffs64_spec payoff paths : forall acc s, sum_payoffs64 payoff acc paths = Ret s <-> exists pays, Forall2 (fun w x => payoff w = Ret x) paths pays /\ s = fold_left fadd pays acc.
Proof.
  induction paths as [|w ps IH]; intros acc s; cbn.
  - split; [intros [= <-]; exists []; split; [constructor|reflexivity]|intros (pays & H & ->); inversion H; reflexivity].
  - destruct (payoff w) as [x| |] eqn:E; cbn.
    + rewrite IH. split; [intros (pays & H & ->); exists (x :: pays); split; [constructor; assumption|reflexivity]|]. intros (pays & H & ->). inversion H as [|? y ? l Y H']; subst. rewrite E in Y. injection Y as <-. exists l. split; [exact H'|reflexivity].
    + split; [discriminate|]. intros (pays & H & _). inversion H; subst; congruence.
    + split; [discriminate|]. intros (pays & H & _). inversion H; subst; congruence.
Qed.
Lemma mc_algebra df s S M N g e1 h1 e2 h2 : 0 < N -> 1 <= N -> 1 <= g -> 0 <= M -> Rabs e1 <= u -> Rabs h1 <= eta -> Rabs e2 <= u -> Rabs h2 <= eta -> Rabs (s - S) <= (g - 1) * M -> Rabs S <= M ->
  Rabs (((df * s) * (1 + e1) + h1) / N * (1 + e2) + h2 - df * S / N) <= (g * (1 + u) ^ 2 - 1) * (Rabs df * M / N) + 3 * eta.
Proof.
  intros N0 N1 G M0 A1 B1 A2 B2 D SM. pose proof u_pos. pose proof u_small.
  replace (((df * s) * (1 + e1) + h1) / N * (1 + e2) + h2 - df * S / N) with (df / N * (s * (e1 + e2 + e1 * e2) + (s - S)) + (h1 / N * (1 + e2) + h2)) by (field; lra).
  eapply Rle_trans; [apply Rabs_triang|]. apply Rplus_le_compat.
  - rewrite Rabs_mult. unfold Rdiv at 1. rewrite Rabs_mult, (Rabs_pos_eq (/ N)) by (left; apply Rinv_0_lt_compat, N0).
    replace ((g * (1 + u) ^ 2 - 1) * (Rabs df * M / N)) with (Rabs df * / N * ((g * (1 + u) ^ 2 - 1) * M)) by (field; lra).
    apply Rmult_le_compat_l; [apply Rmult_le_pos; [apply Rabs_pos|left; apply Rinv_0_lt_compat, N0]|]. eapply Rle_trans; [apply Rabs_triang|]. rewrite Rabs_mult.
    assert (SG : Rabs s <= g * M) by (replace s with ((s - S) + S) by ring; eapply Rle_trans; [apply Rabs_triang|]; lra).
    assert (EE : Rabs (e1 + e2 + e1 * e2) <= (1 + u) ^ 2 - 1). { eapply Rle_trans; [apply Rabs_triang|]. rewrite Rabs_mult. pose proof (Rabs_triang e1 e2). pose proof (Rabs_pos e1). pose proof (Rabs_pos e2). nra. }
    assert (Rabs s * Rabs (e1 + e2 + e1 * e2) <= g * M * ((1 + u) ^ 2 - 1)) by (apply Rmult_le_compat; try apply Rabs_pos; assumption). lra.
  - eapply Rle_trans; [apply Rabs_triang|]. rewrite Rabs_mult. unfold Rdiv. rewrite Rabs_mult, (Rabs_pos_eq (/ N)) by (left; apply Rinv_0_lt_compat, N0).
    assert (I1 : / N <= 1) by (rewrite <- Rinv_1; apply Rinv_le_contravar; lra). assert (I0 : 0 < / N) by (apply Rinv_0_lt_compat, N0).
    assert (T : Rabs (1 + e2) <= 2) by (eapply Rle_trans; [apply Rabs_triang|rewrite Rabs_R1; lra]). pose proof (Rabs_pos h1). pose proof (Rabs_pos (1 + e2)).
    assert (Q : Rabs h1 * / N <= eta) by nra. assert (Q0 : 0 <= Rabs h1 * / N) by (apply Rmult_le_pos; lra). nra.
Qed.
(** The price is the discounted sum of the payoffs over the number of paths, up to an error that
    grows with the number of paths; with non-negative payoffs it is not negative, and it does not
    fall when a payoff rises. *)
Theorem price_mc64_error : forall payoff paths df p, price_mc64 payoff paths df = Ret p -> fin p -> small (length paths) -> paths <> [] ->
  exists pays, Forall2 (fun w x => payoff w = Ret x) paths pays /\ List.Forall fin pays /\ fin df /\
    Rabs (val p - val df * exact pays / INR (length paths)) <= ((1 + u) ^ (length paths + 1) - 1) * (Rabs (val df) * mag pays / INR (length paths)) + 3 * eta /\
    (0 <= val df -> List.Forall (fun x => 0 <= val x) pays -> 0 <= val p).
Proof.
  intros payoff paths df p H F Sm NE. unfold price_mc64 in H. destruct (sum_payoffs64 payoff zero paths) as [s| |] eqn:E; try discriminate. cbn in H. injection H as H. subst p.
  apply sum_payoffs64_spec in E. destruct E as (pays & W & ->). change (fold_left fadd pays zero) with (fsum false pays) in *. exists pays. split; [exact W|].
  pose proof (pays_length _ _ _ W) as LEN. destruct (usize_R _ Sm) as [_ N]. assert (LP : (1 <= length paths)%nat) by (destruct paths; [congruence|cbn; lia]). assert (N1 : 1 <= INR (length paths)) by (apply (le_INR 1); exact LP).
  assert (NZ : val (of_usize (length paths)) <> 0) by (rewrite N; lra). destruct (fdiv_fin _ _ NZ F) as (F1 & V1 & _). destruct (fmul_fin _ _ F1) as (Fd & Fs & V2 & _).
  destruct (sum_error false pays Fs) as [FP ER]. split; [exact FP|]. split; [exact Fd|]. split.
  - rewrite V1, V2, N. destruct (rnd_err (val df * val (fsum false pays))) as (e1 & h1 & A1 & B1 & R1). rewrite R1.
    destruct (rnd_err ((val df * val (fsum false pays) * (1 + e1) + h1) / INR (length paths))) as (e2 & h2 & A2 & B2 & R2). rewrite R2.
    rewrite <- LEN in ER. replace ((1 + u) ^ (length paths + 1)) with ((1 + u) ^ (length paths - 1) * (1 + u) ^ 2) by (rewrite <- pow_add; f_equal; lia).
    apply mc_algebra; try assumption; try lra; [apply pow_ge|apply mag_pos|]. clear. unfold exact, mag. induction pays as [|y r IH]; cbn; [rewrite Rabs_R0; lra|eapply Rle_trans; [apply Rabs_triang|lra]].
  - intros d0 P0. rewrite V1, V2. rewrite <- rnd_0. apply rnd_le. rewrite N. apply Rmult_le_pos; [|left; apply Rinv_0_lt_compat; lra]. rewrite <- rnd_0. apply rnd_le. apply Rmult_le_pos; [exact d0|].
    apply nn_val; [exact Fs|]. apply nn_sum. clear -FP P0. induction FP as [|x l X FP IH]; constructor; inversion P0; subst; [apply nn_fin; assumption|apply IH; assumption].
Qed.
Print Assumptions price_mc64_error.
Definition call_on (k : f64) (w : list f64) : res f64 := Ret (vanilla64 Call k (path_end64 w)).
Example price_mc64_meets : exists p, price_mc64 (call_on (lit 100 0)) [[lit 110 0]; [lit 90 0]; [lit 103 0]] (lit 3 (-2)) = Ret p /\ fin p /\ small 3.
Proof. eexists. split; [reflexivity|]. split; [vm_compute; reflexivity|unfold small; lia]. Qed.
Theorem price_mc64_monotone : forall payoff paths payoff' paths' df p p', price_mc64 payoff paths df = Ret p -> price_mc64 payoff' paths' df = Ret p' -> fin p -> fin p' -> small (length paths) -> paths <> [] -> 0 <= val df ->
  Forall2 (fun w w' => forall x x', payoff w = Ret x -> payoff' w' = Ret x' -> val x <= val x') paths paths' -> val p <= val p'.
Proof.
  intros payoff paths payoff' paths' df p p' H H' F F' Sm NE d0 L. unfold price_mc64 in H, H'. destruct (sum_payoffs64 payoff zero paths) as [s| |] eqn:E; try discriminate. destruct (sum_payoffs64 payoff' zero paths') as [s'| |] eqn:E'; try discriminate.
  cbn in H, H'. injection H as <-. injection H' as <-. apply sum_payoffs64_spec in E. apply sum_payoffs64_spec in E'. destruct E as (l & W & ->), E' as (l' & W' & ->). change (fold_left fadd l zero) with (fsum false l) in *. change (fold_left fadd l' zero) with (fsum false l') in *.
  rewrite <- (pays_length _ _ _ L) in F' |- *. destruct (usize_R _ Sm) as [_ N]. assert (N0 : 0 < INR (length paths)) by (apply lt_0_INR; destruct paths; [congruence|cbn; lia]).
  assert (NZ : val (of_usize (length paths)) <> 0) by (rewrite N; lra). destruct (fdiv_fin _ _ NZ F) as (F1 & V1 & _). destruct (fdiv_fin _ _ NZ F') as (F2 & V2 & _). destruct (fmul_fin _ _ F1) as (_ & G1 & U1 & _). destruct (fmul_fin _ _ F2) as (_ & G2 & U2 & _).
  rewrite V1, V2, N, U1, U2. apply rnd_le. apply Rmult_le_compat_r; [left; apply Rinv_0_lt_compat, N0|]. apply rnd_le. apply Rmult_le_compat_l; [exact d0|]. apply sum_monotone; try assumption.
  clear -W W' L. revert l l' W W'. induction L as [|w w' ps ps' Hw L IH]; intros l l' W W'; inversion W; inversion W'; subst; constructor; [apply Hw; assumption|apply IH; assumption].
Qed.
Print Assumptions price_mc64_monotone.
Example price_mc64_monotone_meets : Forall2 (fun w w' => forall x x', call_on (lit 100 0) w = Ret x -> call_on (lit 90 0) w' = Ret x' -> val x <= val x') [[lit 110 0]] [[lit 110 0]] /\ exists p, price_mc64 (call_on (lit 90 0)) [[lit 110 0]] one = Ret p /\ fin p.
Proof. split; [|eexists; split; [reflexivity|vm_compute; reflexivity]]. constructor; [|constructor]. intros x x' X X'. injection X as <-. injection X' as <-. apply fle_R; vm_compute; reflexivity. Qed.
(** The price is NaN without paths; a payoff that panics stops the pricing; a path that ends in NaN
    pays zero but is counted. *)
Theorem price_mc64_edges : (forall payoff df, price_mc64 payoff [] df = Ret nan) /\
  (forall payoff paths df, (exists w, In w paths /\ payoff w = Panic) -> (forall w, In w paths -> payoff w <> NoFuel) -> price_mc64 payoff paths df = Panic) /\
  (forall k df paths w, path_end64 w = nan -> sum_payoffs64 (call_on k) df (w :: paths) = sum_payoffs64 (call_on k) (fadd df zero) paths).
Proof.
  split; [|split].
  - intros payoff df. destruct df as [s|s| |s m e Hb]; try destruct s; reflexivity.
  - intros payoff paths df (w & I & X) NF. unfold price_mc64. assert (G : forall acc, sum_payoffs64 payoff acc paths = Panic); [|rewrite G; reflexivity]. induction paths as [|v ps IH]; [destruct I|]. intros acc. cbn.
    destruct (payoff v) as [x| |] eqn:E; cbn; [|reflexivity|elim (NF v (or_introl eq_refl) E)]. apply IH; [destruct I as [<-|I]; [congruence|exact I]|intros z Hz; apply NF; right; exact Hz].
  - intros k df paths w H. cbn [sum_payoffs64 call_on bind]. rewrite H, (proj1 payoff_nan_refuted). reflexivity.
Qed.
Print Assumptions price_mc64_edges.
Theorem price_mc64_nan_refuted : exists paths p, (exists w, In w paths /\ path_end64 w = nan) /\ price_mc64 (call_on (lit 100 0)) paths one = Ret p /\ feq p (lit 5 0) = true.
Proof. exists [[lit 110 0]; [nan]]. eexists. split; [exists [nan]; split; [right; left; reflexivity|reflexivity]|]. split; [reflexivity|vm_compute; reflexivity]. Qed.
Print Assumptions price_mc64_nan_refuted.
