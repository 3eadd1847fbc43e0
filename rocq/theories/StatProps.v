(** C28-C30: descriptive statistics; C52: sequences; risk-reward ratios. *)
From Coq Require Import Reals List Bool ZArith Lra Lia Psatz Permutation Sorted.
From Verif Require Import Res InterpModel InterpProofs SplineProps RList StatModel.
Import ListNotations.
Open Scope R_scope.

(** ** Basic facts *)

Lemma INR_len_pos {A} (v : list A) : v <> [] -> 0 < INR (length v).
Proof. intros H. apply lt_0_INR. destruct v; [congruence|simpl; lia]. Qed.
Lemma nonempty_true v : v <> [] -> nonempty v = true.
Proof. destruct v; [congruence|reflexivity]. Qed.
Lemma rsum_affine a b v : rsum (map (fun x => a * x + b) v) = a * rsum v + len v * b.
Proof. rewrite rsum_map_plus, rsum_map_scal, map_id, rsum_map_const. reflexivity. Qed.

Definition avg (v : list R) : R := rsum v / len v.
Lemma mean_avg v : v <> [] -> mean v = Ret (avg v).
Proof. intros H. unfold mean, arithmetic_mean. rewrite nonempty_true by exact H. reflexivity. Qed.
Lemma avg_affine a b v : v <> [] -> avg (map (fun x => a * x + b) v) = a * avg v + b.
Proof.
  intros H. unfold avg. rewrite rsum_affine. unfold len. rewrite map_length. field.
  pose proof (INR_len_pos v H). lra.
Qed.

(** ** C28: mean *)

Theorem mean_laws : forall v w a b, v <> [] -> 
  (Permutation v w -> mean w = mean v) /\
  (exists m, mean v = Ret m /\ 
     mean (map (fun x => a * x + b) v) = Ret (a * m + b) /\
     (* the mean is the balance point *)
     rsum (map (fun x => x - m) v) = 0 /\
     (* between bounds of the sample *)
     (forall lo hi, (forall x, In x v -> lo <= x <= hi) -> lo <= m <= hi) /\
     (* minimises the sum of squares *)
     (forall c, rsum (map (fun x => (x - m) ^ 2) v) <= rsum (map (fun x => (x - c) ^ 2) v))).
Proof.
  intros v w a b H. pose proof (INR_len_pos v H) as N0. split.
  - intros P. unfold mean, arithmetic_mean. assert (w <> []) by (intros ->; apply Permutation_sym, Permutation_nil in P; contradiction).
    rewrite !nonempty_true by assumption. cbn [assertb]. unfold len. rewrite (rsum_perm _ _ P), (Permutation_length P). reflexivity.
  - exists (avg v). split; [apply mean_avg; exact H|].
    assert (Hb : forall c, rsum (map (fun x => x - c) v) = rsum v - INR (length v) * c).
    { intros c. transitivity (rsum (map (fun x => x + - c) v)); [apply rsum_map_ext; intros; ring|].
      rewrite rsum_map_plus, map_id, rsum_map_const. ring. }
    split; [rewrite mean_avg, avg_affine; [reflexivity|exact H|destruct v; [congruence|discriminate]]|].
    split; [rewrite Hb; unfold avg, len; field; lra|]. split.
    + intros lo hi B. 
      assert (L : INR (length v) * lo <= rsum v).
      { rewrite <- (rsum_map_const lo v), <- (map_id v) at 1. rewrite map_map. rewrite <- (map_id v) at 2. apply rsum_map_le. intros x Hx. apply (B x Hx). }
      assert (U : rsum v <= INR (length v) * hi).
      { rewrite <- (rsum_map_const hi v). rewrite <- (map_id v) at 1. apply rsum_map_le. intros x Hx. apply (B x Hx). }
      unfold avg, len. split; (apply Rmult_le_reg_r with (INR (length v)); [exact N0|]); 
        unfold Rdiv; rewrite Rmult_assoc, Rinv_l by lra; lra.
    + intros c. 
      assert (E : rsum (map (fun x => (x - c) ^ 2) v) = rsum (map (fun x => (x - avg v) ^ 2) v) + INR (length v) * (avg v - c) ^ 2).
      { transitivity (rsum (map (fun x => (x - avg v) ^ 2 + ((2 * (avg v - c)) * (x - avg v) + (avg v - c) ^ 2)) v)).
        - apply rsum_map_ext. intros. ring.
        - rewrite rsum_map_plus, rsum_map_plus, rsum_map_scal, rsum_map_const, Hb. unfold avg, len. field. lra. }
      rewrite E. pose proof (pow2_ge_0 (avg v - c)). nra.
Qed.
Print Assumptions mean_laws.
Example mean_laws_case : [1; 2; 6] <> [] /\ mean [1; 2; 6] = Ret 3.
Proof. split; [discriminate|]. rewrite mean_avg by discriminate. unfold avg, len, rsum. simpl. f_equal. field. Qed.

(** ** C28: variances *)

Definition ssd (v : list R) : R := sum_sq_dev v (avg v).
Lemma ssd_nonneg v : 0 <= ssd v.
Proof. apply rsum_nonneg. intros. apply pow2_ge_0. Qed.
Lemma sample_variance_eq v : (2 <= length v)%nat -> sample_variance v = Ret (Some (ssd v / INR (length v - 1))).
Proof.
  intros H. assert (v <> []) by (destruct v; [simpl in H; lia|discriminate]).
  unfold sample_variance. rewrite nonempty_true, mean_avg by assumption. cbn [assertb bind]. unfold fdiv.
  destruct (Reqb_spec (INR (length v - 1)) 0) as [E|_]; [|reflexivity].
  exfalso. apply (not_0_INR (length v - 1)); [lia|exact E].
Qed.
Lemma population_variance_eq v : v <> [] -> population_variance v = Ret (ssd v / len v).
Proof. intros H. unfold population_variance. rewrite nonempty_true, mean_avg by assumption. reflexivity. Qed.
Lemma ssd_perm v w : Permutation v w -> ssd v = ssd w.
Proof.
  intros P. unfold ssd, sum_sq_dev, avg, len. rewrite (rsum_perm _ _ P), (Permutation_length P).
  apply rsum_perm, Permutation_map, P.
Qed.
Lemma ssd_affine a b v : v <> [] -> ssd (map (fun x => a * x + b) v) = a ^ 2 * ssd v.
Proof.
  intros H. unfold ssd, sum_sq_dev. rewrite avg_affine by exact H. rewrite map_map, <- rsum_map_scal.
  apply rsum_map_ext. intros. ring.
Qed.
Lemma ssd_moment v : v <> [] -> ssd v = rsum (map (fun x => x ^ 2) v) - len v * avg v ^ 2.
Proof.
  intros H. unfold ssd, sum_sq_dev.
  transitivity (rsum (map (fun x => x ^ 2 + ((- 2 * avg v) * x + avg v ^ 2)) v)); [apply rsum_map_ext; intros; ring|].
  rewrite rsum_map_plus, rsum_map_plus, rsum_map_scal, rsum_map_const, map_id.
  pose proof (INR_len_pos v H). unfold avg, len. field. lra.
Qed.
Lemma len_S v : (2 <= length v)%nat -> INR (length v - 1) = len v - 1.
Proof. intros H. unfold len. rewrite minus_INR by lia. reflexivity. Qed.

Theorem variance_laws : forall v w a b, (2 <= length v)%nat ->
  exists s p, sample_variance v = Ret (Some s) /\ population_variance v = Ret p /\
    0 <= s /\ 0 <= p /\
    p * INR (length v) = s * (INR (length v) - 1) /\
    (* mean square minus squared mean *)
    (forall m q, mean v = Ret m -> mean (map (fun x => x ^ 2) v) = Ret q -> p = q - m ^ 2) /\
    (Permutation v w -> sample_variance w = Ret (Some s) /\ population_variance w = Ret p) /\
    sample_variance (map (fun x => a * x + b) v) = Ret (Some (a ^ 2 * s)) /\
    population_variance (map (fun x => a * x + b) v) = Ret (a ^ 2 * p) /\
    (* zero exactly for constant samples *)
    (s = 0 <-> exists c, forall x, In x v -> x = c) /\
    standard_deviation v = Ret (sqrt s) /\ population_standard_deviation v = Ret (sqrt p).
Proof.
  intros v w a b H. assert (NE : v <> []) by (destruct v; [simpl in H; lia|discriminate]).
  pose proof (INR_len_pos v NE) as N0. pose proof (ssd_nonneg v) as S0.
  assert (N1 : 0 < INR (length v - 1)) by (apply lt_0_INR; lia).
  assert (NEm : map (fun x => a * x + b) v <> []) by (destruct v; [congruence|discriminate]).
  exists (ssd v / INR (length v - 1)), (ssd v / len v).
  split; [apply sample_variance_eq; exact H|]. split; [apply population_variance_eq; exact NE|].
  split; [apply Rmult_le_pos; [exact S0|left; apply Rinv_0_lt_compat; exact N1]|].
  split; [apply Rmult_le_pos; [exact S0|left; apply Rinv_0_lt_compat; exact N0]|].
  split; [rewrite len_S in N1 |- * by exact H; unfold len in N1 |- *; field; lra|].
  split.
  { intros m q Hm Hq. rewrite mean_avg in Hm by exact NE. injection Hm as <-.
    rewrite mean_avg in Hq by (destruct v; [congruence|discriminate]). assert (Eq : q = avg (map (fun x => x ^ 2) v)) by congruence. subst q. clear Hq.
    rewrite ssd_moment by exact NE. unfold avg, len. rewrite map_length. field. lra. }
  split.
  { intros P. assert (w <> []) by (intros ->; apply Permutation_sym, Permutation_nil in P; contradiction).
    pose proof (Permutation_length P) as L. rewrite sample_variance_eq, population_variance_eq by (lia || assumption).
    unfold len. rewrite (ssd_perm _ _ P), L. split; reflexivity. }
  split; [rewrite sample_variance_eq by (rewrite map_length; exact H); rewrite ssd_affine, map_length by exact NE; do 2 f_equal; unfold Rdiv; ring|].
  split; [rewrite population_variance_eq by exact NEm; unfold len; rewrite ssd_affine, map_length by exact NE; f_equal; unfold Rdiv; ring|].
  split.
  { split.
    - intros E. assert (E0 : ssd v = 0).
      { apply Rmult_integral in E. destruct E as [E|E]; [exact E|]. exfalso. apply Rinv_neq_0_compat in E; lra. }
      exists (avg v). intros x Hx. 
      assert (Z : (x - avg v) ^ 2 = 0) by (apply (rsum_zero (fun x => (x - avg v) ^ 2) v); [intros; apply pow2_ge_0|exact E0|exact Hx]).
      nra.
    - intros (c & Hc). assert (A : avg v = c).
      { unfold avg. replace (rsum v) with (rsum (map (fun _ => c) v)).
        - rewrite rsum_map_const. unfold len. field. lra.
        - rewrite <- (map_id v) at 2. apply rsum_map_ext. intros x Hx. symmetry. apply Hc, Hx. }
      assert (E0 : ssd v = 0).
      { unfold ssd, sum_sq_dev. rewrite A. transitivity (rsum (map (fun _ => 0) v)); [|rewrite rsum_map_const; ring].
        apply rsum_map_ext. intros x Hx. rewrite (Hc x Hx). ring. }
      rewrite E0. unfold Rdiv. ring. }
  assert (B : (1 <? length v)%nat = true) by (apply Nat.ltb_lt; lia).
  split.
  - unfold standard_deviation, variance. rewrite B, sample_variance_eq by exact H. reflexivity.
  - unfold population_standard_deviation. rewrite B, population_variance_eq by exact NE. reflexivity.
Qed.
Print Assumptions variance_laws.
Example variance_laws_case : (2 <= length [1; 2; 6])%nat /\ sample_variance [1; 2; 6] = Ret (Some 7).
Proof.
  split; [simpl; lia|]. rewrite sample_variance_eq by (simpl; lia). unfold ssd, sum_sq_dev, avg, len, rsum. simpl. do 2 f_equal. field.
Qed.

(** one element: the sample variance is 0/0, not a number, and is returned as such *)
Theorem variance_singleton : forall x, sample_variance [x] = Ret None /\ population_variance [x] = Ret 0 /\ standard_deviation [x] = Panic.
Proof.
  intros x. split; [|split].
  - unfold sample_variance. rewrite mean_avg by discriminate. cbn [nonempty assertb bind length Nat.sub]. unfold fdiv.
    destruct (Reqb_spec (INR 0) 0) as [_|N]; [reflexivity|]. exfalso. apply N. reflexivity.
  - rewrite population_variance_eq by discriminate. f_equal. unfold ssd, sum_sq_dev, avg, len, rsum. simpl. field.
  - reflexivity.
Qed.
Print Assumptions variance_singleton.

(** ** C28: covariance and correlation *)

Lemma combine_self {A} (v : list A) : combine v v = map (fun x => (x, x)) v.
Proof. induction v as [|a v IH]; simpl; [reflexivity|rewrite IH; reflexivity]. Qed.
Lemma rsum_combine_l (f : R -> R) v : forall w, length v = length w -> rsum (map (fun p : R * R => f (fst p)) (combine v w)) = rsum (map f v).
Proof. induction v as [|a v IH]; intros [|b w] H; try discriminate; simpl; [reflexivity|]. rewrite IH by (injection H; auto). reflexivity. Qed.
Lemma rsum_combine_r (f : R -> R) v : forall w, length v = length w -> rsum (map (fun p : R * R => f (snd p)) (combine v w)) = rsum (map f w).
Proof. induction v as [|a v IH]; intros [|b w] H; try discriminate; simpl; [reflexivity|]. rewrite IH by (injection H; auto). reflexivity. Qed.

Definition scp (v w : list R) : R := rsum (map (fun p : R * R => (fst p - avg v) * (snd p - avg w)) (combine v w)).
Lemma covariance_eq v w : length v = length w -> (2 <= length v)%nat -> covariance v w = Ret (scp v w / (len v - 1)).
Proof.
  intros L H. unfold covariance. rewrite L, Nat.eqb_refl. replace (1 <? length w)%nat with true by (symmetry; apply Nat.ltb_lt; lia).
  cbn [assertb]. unfold scp, avg, len. rewrite L. reflexivity.
Qed.
Lemma combine_swap (v : list R) : forall w : list R, combine w v = map (fun p : R * R => (snd p, fst p)) (combine v w).
Proof. induction v as [|a v IH]; intros [|b w]; simpl; try reflexivity. rewrite IH. reflexivity. Qed.
Lemma combine_map_l (f : R -> R) v : forall w : list R, combine (map f v) w = map (fun p : R * R => (f (fst p), snd p)) (combine v w).
Proof. induction v as [|a v IH]; intros [|b w]; simpl; try reflexivity. rewrite IH. reflexivity. Qed.
Lemma scp_sym v w : scp v w = scp w v.
Proof. unfold scp. rewrite (combine_swap v w), map_map. apply rsum_map_ext. intros [x y] _. simpl. ring. Qed.
Lemma scp_affine_l a b v w : v <> [] -> scp (map (fun x => a * x + b) v) w = a * scp v w.
Proof.
  intros H. unfold scp. rewrite avg_affine, combine_map_l, map_map, <- rsum_map_scal by exact H.
  apply rsum_map_ext. intros [x y] _. simpl. ring.
Qed.
Lemma scp_affine_r a b v w : w <> [] -> scp v (map (fun x => a * x + b) w) = a * scp v w.
Proof. intros H. rewrite scp_sym, scp_affine_l, scp_sym by exact H. reflexivity. Qed.
Lemma scp_self v : scp v v = ssd v.
Proof. unfold scp, ssd, sum_sq_dev. rewrite combine_self, map_map. apply rsum_map_ext. intros x _. simpl. ring. Qed.
Lemma scp_bound v w : length v = length w -> scp v w * scp v w <= ssd v * ssd w.
Proof.
  intros L. pose proof (cauchy_schwarz (fun p : R * R => fst p - avg v) (fun p => snd p - avg w) (combine v w)) as H.
  cbv beta in H. fold (scp v w) in H. unfold ssd, sum_sq_dev.
  rewrite (rsum_combine_l (fun x => (x - avg v) * (x - avg v)) v w L) in H.
  rewrite (rsum_combine_r (fun x => (x - avg w) * (x - avg w)) v w L) in H.
  replace (rsum (map (fun x => (x - avg v) ^ 2) v)) with (rsum (map (fun x => (x - avg v) * (x - avg v)) v)) by (apply rsum_map_ext; intros; ring).
  replace (rsum (map (fun x => (x - avg w) ^ 2) w)) with (rsum (map (fun x => (x - avg w) * (x - avg w)) w)) by (apply rsum_map_ext; intros; ring).
  exact H.
Qed.

Theorem covariance_laws : forall v w u a b, length v = length w -> length u = length w -> (2 <= length v)%nat ->
  exists c, covariance v w = Ret c /\
    covariance w v = Ret c /\
    covariance (map (fun x => a * x + b) v) w = Ret (a * c) /\
    sample_variance v = rmap Some (covariance v v) /\
    (forall d, covariance u w = Ret d -> covariance (map (fun p : R * R => fst p + snd p) (combine v u)) w = Ret (c + d)) /\
    (* pairs may be reordered together *)
    (forall v' w', length v' = length w' -> Permutation (combine v w) (combine v' w') -> covariance v' w' = Ret c).
Proof.
  intros v w u a b L Lu H. assert (NE : v <> []) by (destruct v; [simpl in H; lia|discriminate]).
  pose proof (INR_len_pos v NE) as N0.
  exists (scp v w / (len v - 1)). split; [apply covariance_eq; assumption|].
  split; [rewrite covariance_eq by lia; unfold len; rewrite L, scp_sym; reflexivity|].
  split; [rewrite covariance_eq by (rewrite map_length; lia); unfold len; rewrite scp_affine_l, map_length by exact NE; f_equal; unfold Rdiv; ring|].
  split; [rewrite sample_variance_eq, covariance_eq by (lia || reflexivity); cbn; rewrite scp_self, len_S by exact H; reflexivity|].
  split.
  - intros d Hd. rewrite covariance_eq in Hd by lia. injection Hd as <-.
    rewrite covariance_eq by (rewrite map_length, combine_length; lia). f_equal.
    assert (Ls : len (map (fun p : R * R => fst p + snd p) (combine v u)) = len v) by (unfold len; rewrite map_length, combine_length; f_equal; lia).
    assert (A : avg (map (fun p : R * R => fst p + snd p) (combine v u)) = avg v + avg u).
    { unfold avg. rewrite Ls, rsum_map_plus. rewrite (rsum_combine_l (fun x => x)), (rsum_combine_r (fun x => x)), !map_id by lia.
      unfold len. replace (length u) with (length v) by lia. field. lra. }
    rewrite Ls. replace (len u) with (len v) by (unfold len; f_equal; lia).
    assert (E : scp (map (fun p : R * R => fst p + snd p) (combine v u)) w = scp v w + scp u w).
    { unfold scp. rewrite A. generalize (avg v) (avg u) (avg w). clear - L Lu. intros mv mu mw. 
      revert w u L Lu. induction v as [|x v IH]; intros [|z w] [|y u] L Lu; try discriminate; [simpl; ring|].
      cbn [combine map fst snd]. 
      change (rsum (((x + y - (mv + mu)) * (z - mw)) :: map (fun p : R * R => (fst p - (mv + mu)) * (snd p - mw)) (combine (map (fun p : R * R => fst p + snd p) (combine v u)) w)) =
        rsum ((x - mv) * (z - mw) :: map (fun p : R * R => (fst p - mv) * (snd p - mw)) (combine v w)) +
        rsum ((y - mu) * (z - mw) :: map (fun p : R * R => (fst p - mu) * (snd p - mw)) (combine u w))).
      unfold rsum in *. cbn [fold_right]. specialize (IH w u ltac:(injection L; auto) ltac:(injection Lu; auto)). lra. }
    rewrite E. unfold Rdiv. ring.
  - intros v' w' L' P. assert (Pl := Permutation_length P). rewrite !combine_length in Pl.
    rewrite covariance_eq by lia. 
    assert (Ps : forall f, rsum (map f (combine v w)) = rsum (map f (combine v' w'))) by (intros f; apply rsum_perm, Permutation_map, P).
    assert (A1 : avg v = avg v').
    { unfold avg, len. replace (length v') with (length v) by lia. f_equal.
      pose proof (Ps (fun p : R * R => fst p)) as E. rewrite (rsum_combine_l (fun x => x)), (rsum_combine_l (fun x => x)), !map_id in E by lia. exact E. }
    assert (A2 : avg w = avg w').
    { unfold avg, len. replace (length w') with (length w) by lia. f_equal.
      pose proof (Ps (fun p : R * R => snd p)) as E. rewrite (rsum_combine_r (fun x => x)), (rsum_combine_r (fun x => x)), !map_id in E by lia. exact E. }
    unfold scp, len. rewrite <- A1, <- A2, <- Ps. replace (length v') with (length v) by lia. reflexivity.
Qed.
Print Assumptions covariance_laws.
Example covariance_laws_case : covariance [1; 2; 6] [2; 4; 3] = Ret (/ 2).
Proof. rewrite covariance_eq by (simpl; lia). unfold scp, avg, len, rsum. simpl. f_equal. field. Qed.

Lemma sd_eq v : (2 <= length v)%nat -> standard_deviation v = Ret (sqrt (ssd v / (len v - 1))).
Proof.
  intros H. unfold standard_deviation, variance. rewrite sample_variance_eq, len_S by exact H.
  replace (1 <? length v)%nat with true by (symmetry; apply Nat.ltb_lt; lia). reflexivity.
Qed.
Lemma corr_eq v w : length v = length w -> (2 <= length v)%nat -> 0 < ssd v -> 0 < ssd w ->
  correlation v w = Ret (scp v w / (sqrt (ssd v) * sqrt (ssd w))).
Proof.
  intros L H Sv Sw. unfold correlation. rewrite covariance_eq, !sd_eq by lia. cbn [bind].
  assert (Lw : len w = len v) by (unfold len; rewrite L; reflexivity). rewrite Lw.
  assert (N1 : 0 < len v - 1) by (rewrite <- len_S by exact H; apply lt_0_INR; lia).
  assert (P1 : 0 < ssd v / (len v - 1)) by (apply Rdiv_lt_0_compat; assumption).
  assert (P2 : 0 < ssd w / (len v - 1)) by (apply Rdiv_lt_0_compat; assumption).
  pose proof (sqrt_lt_R0 _ P1). pose proof (sqrt_lt_R0 _ P2).
  destruct (Reqb_spec (sqrt (ssd v / (len v - 1))) 0) as [E|_]; [lra|].
  destruct (Reqb_spec (sqrt (ssd w / (len v - 1))) 0) as [E|_]; [lra|].
  cbn [orb negb assertb]. f_equal. rewrite !sqrt_div by lra.
  pose proof (sqrt_lt_R0 _ Sv). pose proof (sqrt_lt_R0 _ Sw). pose proof (sqrt_lt_R0 _ N1).
  set (q := sqrt (len v - 1)) in *. assert (Q : len v - 1 = q * q) by (unfold q; rewrite sqrt_sqrt by lra; reflexivity).
  rewrite Q. field. repeat split; lra.
Qed.
Lemma ssd_pos_iff v : v <> [] -> 0 < ssd v <-> ~ exists c, forall x, In x v -> x = c.
Proof.
  intros NE. pose proof (ssd_nonneg v) as S0. split.
  - intros P (c & Hc). assert (A : avg v = c).
    { unfold avg. replace (rsum v) with (rsum (map (fun _ => c) v)).
      - rewrite rsum_map_const. unfold len. field. pose proof (INR_len_pos v NE). lra.
      - rewrite <- (map_id v) at 2. apply rsum_map_ext. intros x Hx. symmetry. apply Hc, Hx. }
    assert (E0 : ssd v = 0).
    { unfold ssd, sum_sq_dev. rewrite A. transitivity (rsum (map (fun _ => 0) v)); [|rewrite rsum_map_const; ring].
      apply rsum_map_ext. intros x Hx. rewrite (Hc x Hx). ring. }
    lra.
  - intros N. destruct S0 as [P|E]; [exact P|]. exfalso. apply N. exists (avg v). intros x Hx.
    assert (Z : (x - avg v) ^ 2 = 0) by (apply (rsum_zero (fun x => (x - avg v) ^ 2) v); [intros; apply pow2_ge_0|symmetry; exact E|exact Hx]).
    nra.
Qed.
Definition constant (v : list R) : Prop := exists c, forall x, In x v -> x = c.

(** defined exactly for two equally long, non-constant samples of at least two
    elements; within [-1, 1]; symmetric; invariant under positive affine maps;
    1 against an increasing affine image of itself and -1 against a decreasing one *)
Theorem correlation_laws : forall v w,
  (exists r, correlation v w = Ret r) <-> (length v = length w /\ (2 <= length v)%nat /\ ~ constant v /\ ~ constant w).
Proof.
  intros v w. split.
  - intros (r & H). unfold correlation in H. apply bind_Ret_inv in H as (c & Hc & H).
    unfold covariance in Hc. destruct (Nat.eqb_spec (length v) (length w)) as [L|]; [|discriminate]. cbn [assertb] in Hc.
    destruct (Nat.ltb_spec 1 (length v)) as [L2|]; [|discriminate]. clear Hc.
    rewrite !sd_eq in H by lia. cbn [bind] in H.
    assert (NE : v <> []) by (destruct v; [simpl in L2; lia|discriminate]).
    assert (NE' : w <> []) by (destruct w; [simpl in L; lia|discriminate]).
    split; [exact L|]. split; [lia|]. split.
    + apply ssd_pos_iff; [exact NE|]. destruct (ssd_nonneg v) as [P|E]; [exact P|]. exfalso. rewrite <- E in H.
      replace (0 / (len v - 1)) with 0 in H by (unfold Rdiv; ring). rewrite sqrt_0 in H.
      destruct (Reqb_spec 0 0); [discriminate|lra].
    + apply ssd_pos_iff; [exact NE'|]. destruct (ssd_nonneg w) as [P|E]; [exact P|]. exfalso. rewrite <- E in H.
      replace (0 / (len w - 1)) with 0 in H by (unfold Rdiv; ring). rewrite sqrt_0 in H.
      destruct (Reqb_spec 0 0); [|lra]. rewrite orb_true_r in H. discriminate.
  - intros (L & H & Cv & Cw). eexists. apply corr_eq; [exact L|exact H|apply ssd_pos_iff; [|exact Cv]|apply ssd_pos_iff; [|exact Cw]].
    + destruct v; [simpl in H; lia|discriminate].
    + destruct w; [simpl in L, H; lia|discriminate].
Qed.
Print Assumptions correlation_laws.

Theorem correlation_bounded : forall v w r, correlation v w = Ret r -> -1 <= r <= 1 /\ correlation w v = Ret r.
Proof.
  intros v w r Hr. destruct (proj1 (correlation_laws v w) (ex_intro _ r Hr)) as (L & H & Cv & Cw).
  assert (NE : v <> []) by (destruct v; [simpl in H; lia|discriminate]).
  assert (NE' : w <> []) by (destruct w; [simpl in H, L; lia|discriminate]).
  apply ssd_pos_iff in Cv; [|exact NE]. apply ssd_pos_iff in Cw; [|exact NE'].
  rewrite corr_eq in Hr by assumption. injection Hr as <-.
  split; [|rewrite corr_eq by (assumption || lia); rewrite scp_sym, Rmult_comm; reflexivity].
  pose proof (scp_bound v w L) as B. set (p := sqrt (ssd v) * sqrt (ssd w)).
  assert (P : 0 < p) by (apply Rmult_lt_0_compat; apply sqrt_lt_R0; assumption).
  assert (PP : p * p = ssd v * ssd w).
  { unfold p. transitivity ((sqrt (ssd v) * sqrt (ssd v)) * (sqrt (ssd w) * sqrt (ssd w))); [ring|]. rewrite !sqrt_sqrt by lra. reflexivity. }
  rewrite <- PP in B. assert (-p <= scp v w <= p) by (split; nra).
  split; (apply Rmult_le_reg_r with p; [exact P|]); unfold Rdiv; rewrite Rmult_assoc, Rinv_l by lra; lra.
Qed.
Print Assumptions correlation_bounded.

Theorem correlation_affine : forall v w r a b, correlation v w = Ret r ->
  (0 < a -> correlation (map (fun x => a * x + b) v) w = Ret r) /\
  (a < 0 -> correlation (map (fun x => a * x + b) v) w = Ret (- r)) /\
  (0 < a -> correlation v (map (fun x => a * x + b) v) = Ret 1) /\
  (a < 0 -> correlation v (map (fun x => a * x + b) v) = Ret (-1)).
Proof.
  intros v w r a b Hr. destruct (proj1 (correlation_laws v w) (ex_intro _ r Hr)) as (L & H & Cv & Cw).
  assert (NE : v <> []) by (destruct v; [simpl in H; lia|discriminate]).
  assert (NE' : w <> []) by (destruct w; [simpl in H, L; lia|discriminate]).
  apply ssd_pos_iff in Cv; [|exact NE]. apply ssd_pos_iff in Cw; [|exact NE'].
  rewrite corr_eq in Hr by assumption. injection Hr as <-.
  pose proof (sqrt_lt_R0 _ Cv) as Q1. pose proof (sqrt_lt_R0 _ Cw) as Q2.
  assert (Sq : forall k, k <> 0 -> 0 < ssd (map (fun x => k * x + b) v) /\ sqrt (ssd (map (fun x => k * x + b) v)) = Rabs k * sqrt (ssd v)).
  { intros k K. rewrite ssd_affine by exact NE. assert (0 < k ^ 2) by (pose proof (pow2_ge_0 k); assert (k ^ 2 <> 0) by (apply pow_nonzero; exact K); lra).
    split; [apply Rmult_lt_0_compat; assumption|]. rewrite sqrt_mult by lra. f_equal. replace (k ^ 2) with (Rsqr k) by (unfold Rsqr; ring). apply sqrt_Rsqr_abs. }
  split; [|split; [|split]]; intros A; destruct (Sq a ltac:(lra)) as [S1 S2].
  - rewrite corr_eq by (rewrite ?map_length; assumption). rewrite scp_affine_l, S2, Rabs_pos_eq by (assumption || lra). f_equal. field. lra.
  - rewrite corr_eq by (rewrite ?map_length; assumption). rewrite scp_affine_l, S2, Rabs_left by (assumption || lra). f_equal. field. lra.
  - rewrite corr_eq by (rewrite ?map_length; auto). rewrite scp_affine_r, S2, Rabs_pos_eq, scp_self by (assumption || lra). f_equal.
    rewrite <- (sqrt_sqrt (ssd v)) at 1 by lra. field. lra.
  - rewrite corr_eq by (rewrite ?map_length; auto). rewrite scp_affine_r, S2, Rabs_left, scp_self by (assumption || lra). f_equal.
    rewrite <- (sqrt_sqrt (ssd v)) at 1 by lra. field. lra.
Qed.
Print Assumptions correlation_affine.
Example correlation_case : exists r, correlation [1; 2; 6] [2; 4; 3] = Ret r.
Proof.
  apply correlation_laws. split; [reflexivity|]. split; [simpl; lia|]. split; intros (c & H).
  - assert (1 = c) by (apply H; simpl; tauto). assert (2 = c) by (apply H; simpl; tauto). lra.
  - assert (2 = c) by (apply H; simpl; tauto). assert (4 = c) by (apply H; simpl; tauto). lra.
Qed.

(** ** C28: skewness and kurtosis *)

Lemma sd_affine a b v : (2 <= length v)%nat -> standard_deviation (map (fun x => a * x + b) v) = Ret (Rabs a * sqrt (ssd v / (len v - 1))).
Proof.
  intros H. assert (NE : v <> []) by (destruct v; [simpl in H; lia|discriminate]).
  rewrite sd_eq by (rewrite map_length; exact H). f_equal. rewrite ssd_affine by exact NE. unfold len. rewrite map_length. fold (len v).
  assert (N1 : 0 < len v - 1) by (rewrite <- len_S by exact H; apply lt_0_INR; lia).
  replace (a ^ 2 * ssd v / (len v - 1)) with (Rsqr a * (ssd v / (len v - 1))) by (unfold Rsqr; field; lra).
  rewrite sqrt_mult; [rewrite sqrt_Rsqr_abs; reflexivity|apply Rle_0_sqr|].
  apply Rmult_le_pos; [apply ssd_nonneg|left; apply Rinv_0_lt_compat; exact N1].
Qed.

Theorem skew_kurt_affine : forall v a b,
  (0 < a -> skewness (map (fun x => a * x + b) v) = skewness v) /\
  (a < 0 -> skewness (map (fun x => a * x + b) v) = rmap (option_map Ropp) (skewness v)) /\
  (a <> 0 -> kurtosis (map (fun x => a * x + b) v) = kurtosis v).
Proof.
  intros v a b. 
  assert (Core : a <> 0 -> forall k, (2 < length v)%nat -> 
    forall sd, sd <> 0 -> rsum (map (fun x => ((x - avg (map (fun x => a * x + b) v)) / (Rabs a * sd)) ^ k) (map (fun x => a * x + b) v)) =
       (a / Rabs a) ^ k * rsum (map (fun x => ((x - avg v) / sd) ^ k) v)).
  { intros A k H sd S. assert (NE : v <> []) by (destruct v; [simpl in H; lia|discriminate]).
    rewrite avg_affine, map_map, <- rsum_map_scal by exact NE. apply rsum_map_ext. intros x _.
    rewrite <- Rpow_mult_distr. f_equal. field. split; [exact S|apply Rabs_no_R0; exact A]. }
  assert (Z : forall sd, a <> 0 -> Reqb (Rabs a * sd) 0 = Reqb sd 0).
  { intros sd A. pose proof (Rabs_no_R0 a A). destruct (Reqb_spec sd 0) as [Y|N]; destruct (Reqb_spec (Rabs a * sd) 0) as [E|E]; try reflexivity.
    - exfalso. apply E. rewrite Y. ring.
    - exfalso. apply Rmult_integral in E. tauto. }
  assert (Sk : a <> 0 -> skewness (map (fun x => a * x + b) v) = rmap (option_map (Rmult ((a / Rabs a) ^ 3))) (skewness v)).
  { intros A. unfold skewness. unfold len. rewrite map_length. destruct (Nat.ltb_spec 2 (length v)) as [H|]; [|reflexivity].
    assert (NE : v <> []) by (destruct v; [simpl in H; lia|discriminate]).
    assert (NE' : map (fun x => a * x + b) v <> []) by (destruct v; [congruence|discriminate]).
    cbn [assertb]. rewrite (mean_avg _ NE), (mean_avg _ NE'), sd_affine, sd_eq by lia. cbn [bind rmap option_map].
    rewrite Z by exact A. destruct (Reqb_spec (sqrt (ssd v / (len v - 1))) 0) as [E|N]; [reflexivity|].
    cbn [option_map]. rewrite Core by assumption. do 2 f_equal. unfold Rdiv. ring. }
  split; [|split].
  - intros A. rewrite Sk by lra. rewrite Rabs_pos_eq by lra. replace (a / a) with 1 by (field; lra). rewrite pow1.
    destruct (skewness v) as [[s|]| |]; cbn; try reflexivity. do 2 f_equal. ring.
  - intros A. rewrite Sk by lra. rewrite Rabs_left by lra. replace (a / - a) with (-1) by (field; lra). 
    destruct (skewness v) as [[s|]| |]; cbn; try reflexivity. do 2 f_equal. ring.
  - intros A. unfold kurtosis. unfold len. rewrite map_length. destruct (Nat.ltb_spec 3 (length v)) as [H|]; [|reflexivity].
    assert (NE : v <> []) by (destruct v; [simpl in H; lia|discriminate]).
    assert (NE' : map (fun x => a * x + b) v <> []) by (destruct v; [congruence|discriminate]).
    cbn [assertb]. rewrite (mean_avg _ NE), (mean_avg _ NE'), sd_affine, sd_eq by lia. cbn [bind].
    rewrite Z by exact A. destruct (Reqb_spec (sqrt (ssd v / (len v - 1))) 0) as [E|N]; [reflexivity|].
    rewrite Core by (assumption || lia). 
    replace ((a / Rabs a) ^ 4) with 1; [rewrite Rmult_1_l; reflexivity|].
    symmetry. replace ((a / Rabs a) ^ 4) with (((a / Rabs a) * (a / Rabs a)) * ((a / Rabs a) * (a / Rabs a))) by ring.
    assert (E : a / Rabs a * (a / Rabs a) = 1).
    { unfold Rabs. destruct (Rcase_abs a); field; lra. }
    rewrite E. ring.
Qed.
Print Assumptions skew_kurt_affine.
(** symmetric samples have no skew *)
Theorem skewness_symmetric : forall v c s, Permutation v (map (fun x => 2 * c - x) v) -> skewness v = Ret (Some s) -> s = 0.
Proof.
  intros v c s P H. 
  assert (E : skewness (map (fun x => -1 * x + 2 * c) v) = Ret (Some s)).
  { rewrite <- H. assert (Pm : Permutation v (map (fun x => -1 * x + 2 * c) v)).
    { eapply Permutation_trans; [exact P|]. replace (map (fun x => 2 * c - x) v) with (map (fun x => -1 * x + 2 * c) v); [apply Permutation_refl|]. apply map_ext. intros. ring. }
    set (w := map (fun x => -1 * x + 2 * c) v) in *. unfold skewness, len. rewrite <- (Permutation_length Pm).
    destruct (Nat.ltb_spec 2 (length v)) as [L|]; [|reflexivity]. cbn [assertb].
    assert (NE : v <> []) by (destruct v; [simpl in L; lia|discriminate]).
    destruct (mean_laws v w 0 0 NE) as [M _]. rewrite (M Pm), (mean_avg v NE). cbn [bind].
    rewrite !sd_eq by (rewrite <- ?(Permutation_length Pm); lia). cbn [bind]. unfold len. rewrite <- (Permutation_length Pm), <- (ssd_perm _ _ Pm).
    destruct (Reqb _ _); [reflexivity|]. do 4 f_equal. apply rsum_perm, Permutation_map, Permutation_sym, Pm. }
  destruct (skew_kurt_affine v (-1) (2 * c)) as (_ & N & _). rewrite N in E by lra. rewrite H in E. cbn in E. injection E as E. lra.
Qed.
Print Assumptions skewness_symmetric.
Example skewness_case : Permutation [1; 2; 3] (map (fun x => 2 * 2 - x) [1; 2; 3]) /\ exists s, skewness [1; 2; 3] = Ret (Some s).
Proof.
  split.
  - cbn [map]. replace (2 * 2 - 1) with 3 by ring. replace (2 * 2 - 2) with 2 by ring. replace (2 * 2 - 3) with 1 by ring.
    apply perm_trans with [2; 1; 3]; [apply perm_swap|]. apply perm_trans with [2; 3; 1]; [apply perm_skip, perm_swap|apply perm_swap].
  - unfold skewness. cbn [length Nat.ltb Nat.leb assertb]. rewrite mean_avg by discriminate. rewrite sd_eq by (simpl; lia). cbn [bind].
    destruct (Reqb_spec (sqrt (ssd [1; 2; 3] / (len [1; 2; 3] - 1))) 0) as [E|_]; [|eexists; reflexivity].
    exfalso. apply sqrt_eq_0 in E; unfold ssd, sum_sq_dev, avg, len, rsum in *; simpl in *; lra.
Qed.

(** ** C29: the classical means *)

Lemma ln_le_minus_1 y : 0 < y -> ln y <= y - 1.
Proof.
  intros H. destruct (Req_dec y 1) as [->|N]; [rewrite ln_1; lra|].
  rewrite <- (ln_exp (y - 1)). left. apply ln_increasing; [exact H|]. pose proof (exp_ineq1 (y - 1) ltac:(lra)). lra.
Qed.
Lemma ln_quot x y : 0 < x -> 0 < y -> ln (x / y) = ln x - ln y.
Proof. intros X Y. unfold Rdiv. rewrite ln_mult, ln_Rinv; [ring|exact Y|exact X|apply Rinv_0_lt_compat, Y]. Qed.
Lemma amgm v : v <> [] -> (forall x, In x v -> 0 < x) -> rsum (map ln v) <= len v * ln (avg v).
Proof.
  intros NE P. pose proof (INR_len_pos v NE) as N0.
  assert (A : 0 < avg v).
  { unfold avg. apply Rdiv_lt_0_compat; [|exact N0]. destruct v as [|a v]; [congruence|]. 
    change (rsum (a :: v)) with (a + rsum v). assert (0 < a) by (apply P; left; reflexivity).
    assert (0 <= rsum v). { rewrite <- (map_id v). apply rsum_nonneg. intros x Hx. left. apply P. right. exact Hx. }
    lra. }
  assert (E : rsum (map (fun x => ln x - ln (avg v)) v) <= rsum (map (fun x => / avg v * x + -1) v)).
  { apply rsum_map_le. intros x Hx. specialize (P x Hx).
    rewrite <- ln_quot by assumption. pose proof (ln_le_minus_1 (x / avg v) ltac:(apply Rdiv_lt_0_compat; assumption)).
    unfold Rdiv in *. lra. }
  rewrite rsum_affine in E.
  assert (E1 : rsum (map (fun x => ln x - ln (avg v)) v) = rsum (map ln v) - len v * ln (avg v)).
  { transitivity (rsum (map (fun x => ln x + - ln (avg v)) v)); [apply rsum_map_ext; intros; ring|].
    rewrite rsum_map_plus, rsum_map_const. unfold len. ring. }
  assert (E2 : / avg v * rsum v + len v * -1 = 0).
  { assert (Hs : rsum v = avg v * len v) by (unfold avg, len; field; lra). rewrite Hs. field. lra. }
  lra.
Qed.
Lemma gm_eq v : v <> [] -> (forall x, In x v -> 0 < x) -> geometric_mean v = Ret (Some (exp (rsum (map ln v) / len v))).
Proof.
  intros NE P. unfold geometric_mean, nth_root. rewrite nonempty_true by exact NE. cbn [assertb].
  destruct (Rltb_spec 0 (rprod v)) as [_|N]; [|exfalso; apply N, rprod_pos, P].
  do 2 f_equal. unfold Rpower. f_equal. rewrite ln_rprod by exact P. unfold len, Rdiv. ring.
Qed.
Lemma hm_eq v : v <> [] -> (forall x, In x v -> 0 < x) -> harmonic_mean v = Ret (Some (/ avg (map Rinv v))) /\ 0 < avg (map Rinv v).
Proof.
  intros NE P. pose proof (INR_len_pos v NE) as N0. unfold harmonic_mean. rewrite nonempty_true by exact NE. cbn [assertb].
  assert (X : existsb (fun x => Reqb x 0) v = false).
  { destruct (existsb (fun x => Reqb x 0) v) eqn:E; [|reflexivity]. apply existsb_exists in E as (x & Hx & Z).
    destruct (Reqb_spec x 0) as [->|]; [|discriminate]. specialize (P 0 Hx). lra. }
  rewrite X. replace (rsum (map (fun x => 1 / x) v)) with (rsum (map Rinv v)) by (apply rsum_map_ext; intros; unfold Rdiv; ring).
  assert (S0 : 0 < rsum (map Rinv v)).
  { destruct v as [|a v]; [congruence|]. cbn [map]. change (rsum (/ a :: map Rinv v)) with (/ a + rsum (map Rinv v)).
    assert (0 < / a) by (apply Rinv_0_lt_compat, P; left; reflexivity).
    assert (0 <= rsum (map Rinv v)) by (apply rsum_nonneg; intros x Hx; left; apply Rinv_0_lt_compat, P; right; exact Hx). lra. }
  unfold fdiv. destruct (Reqb_spec (rsum (map Rinv v)) 0) as [E|_]; [lra|]. 
  split.
  - do 2 f_equal. unfold avg, len. rewrite map_length. field. lra.
  - unfold avg, len. rewrite map_length. apply Rdiv_lt_0_compat; assumption.
Qed.

Lemma exp_pow x n : exp x ^ n = exp (INR n * x).
Proof.
  induction n as [|n IH]; [simpl; rewrite Rmult_0_l, exp_0; reflexivity|].
  rewrite S_INR. cbn [pow]. rewrite IH, <- exp_plus. f_equal. ring.
Qed.
Theorem means_ordered : forall v, v <> [] -> (forall x, In x v -> 0 < x) ->
  exists h g a, harmonic_mean v = Ret (Some h) /\ geometric_mean v = Ret (Some g) /\ arithmetic_mean v = Ret a /\
    0 < h /\ h <= g /\ g <= a /\
    (forall lo hi, (forall x, In x v -> lo <= x <= hi) -> lo <= h /\ a <= hi) /\
    (* the geometric mean is the n-th root of the product, the harmonic mean
       the reciprocal of the mean reciprocal *)
    g ^ length v = rprod v /\ arithmetic_mean (map Rinv v) = Ret (/ h).
Proof.
  intros v NE P. pose proof (INR_len_pos v NE) as N0.
  destruct (hm_eq v NE P) as [Eh Hh].
  exists (/ avg (map Rinv v)), (exp (rsum (map ln v) / len v)), (avg v).
  split; [exact Eh|]. split; [apply gm_eq; assumption|]. split; [apply mean_avg; exact NE|].
  assert (NE' : map Rinv v <> []) by (destruct v; [congruence|discriminate]).
  assert (P' : forall x, In x (map Rinv v) -> 0 < x).
  { intros x Hx. apply in_map_iff in Hx as (y & <- & Hy). apply Rinv_0_lt_compat, P, Hy. }
  assert (Av : 0 < avg v).
  { destruct (mean_laws v v 0 0 NE) as [_ (m & Em & _ & _ & B & _)]. rewrite mean_avg in Em by exact NE. injection Em as <-.
    (* lower bound by the minimum is not needed: sum of positives *)
    unfold avg. apply Rdiv_lt_0_compat; [|exact N0]. destruct v as [|a v]; [congruence|].
    change (rsum (a :: v)) with (a + rsum v). assert (0 < a) by (apply P; left; reflexivity).
    assert (0 <= rsum v). { rewrite <- (map_id v). apply rsum_nonneg. intros x Hx. left. apply P. right. exact Hx. }
    lra. }
  split; [apply Rinv_0_lt_compat; exact Hh|]. split.
  - pose proof (amgm _ NE' P') as H. rewrite map_map in H. unfold len in H. rewrite map_length in H. fold (len v) in H.
    assert (E : rsum (map (fun x => ln (/ x)) v) = - rsum (map ln v)).
    { transitivity (rsum (map (fun x => -1 * ln x) v)); [|rewrite rsum_map_scal; ring].
      apply rsum_map_ext. intros x Hx. rewrite ln_Rinv by (apply P, Hx). ring. }
    rewrite E in H. rewrite <- (exp_ln (/ avg (map Rinv v))) by (apply Rinv_0_lt_compat; exact Hh).
    assert (L : ln (/ avg (map Rinv v)) <= rsum (map ln v) / len v).
    { rewrite ln_Rinv by exact Hh. apply Rmult_le_reg_r with (len v); [exact N0|]. unfold Rdiv. rewrite Rmult_assoc, Rinv_l by (unfold len; lra). lra. }
    destruct L as [L|L]; [left; apply exp_increasing, L|rewrite L; lra].
  - split.
    + pose proof (amgm _ NE P) as H. rewrite <- (exp_ln (avg v)) by exact Av.
      assert (L : rsum (map ln v) / len v <= ln (avg v)).
      { apply Rmult_le_reg_r with (len v); [exact N0|]. unfold Rdiv. rewrite Rmult_assoc, Rinv_l by (unfold len; lra). lra. }
      destruct L as [L|L]; [left; apply exp_increasing, L|rewrite L; lra].
    + split; [|split].
      * intros lo hi B. split.
        -- destruct (Rle_or_lt lo 0) as [N|Q]; [left; eapply Rle_lt_trans; [exact N|apply Rinv_0_lt_compat; exact Hh]|].
           destruct (mean_laws _ v 0 0 NE') as [_ (m & Em & _ & _ & Bm & _)]. rewrite mean_avg in Em by exact NE'. injection Em as <-.
           assert (U : 0 <= avg (map Rinv v) <= / lo).
           { apply Bm. intros x Hx. apply in_map_iff in Hx as (y & <- & Hy). specialize (P y Hy). destruct (B y Hy) as [B1 _].
             split; [left; apply Rinv_0_lt_compat; exact P|apply Rinv_le_contravar; assumption]. }
           rewrite <- (Rinv_inv lo). apply Rinv_le_contravar; [exact Hh|tauto].
        -- destruct (mean_laws v v 0 0 NE) as [_ (m & Em & _ & _ & Bm & _)]. rewrite mean_avg in Em by exact NE. injection Em as <-.
           apply (Bm lo hi B).
      * rewrite exp_pow, <- (exp_ln (rprod v)), ln_rprod by (apply rprod_pos, P || exact P). f_equal. unfold len. field. lra.
      * change (arithmetic_mean (map Rinv v)) with (mean (map Rinv v)). rewrite mean_avg by exact NE'. rewrite Rinv_inv. reflexivity.
Qed.
Print Assumptions means_ordered.
Example means_case : [1; 2; 4] <> [] /\ (forall x, In x [1; 2; 4] -> 0 < x) /\ rprod [1; 2; 4] = 8.
Proof. split; [discriminate|]. split; [|unfold rprod; simpl; ring]. intros x [<-|[<-|[<-|[]]]]; lra. Qed.

(** ** C30: order statistics *)

Lemma sort_length v : length (sort_R v) = length v.
Proof. apply Permutation_length, sort_R_perm. Qed.
Lemma sort_perm v w : Permutation v w -> sort_R v = sort_R w.
Proof.
  intros P. apply sorted_unique; [apply sort_R_sorted|apply sort_R_sorted|].
  eapply Permutation_trans; [apply sort_R_perm|]. eapply Permutation_trans; [exact P|apply Permutation_sym, sort_R_perm].
Qed.
Lemma sorted_nth l : StronglySorted Rle l -> forall i j a b, (i <= j)%nat -> nth_error l i = Some a -> nth_error l j = Some b -> a <= b.
Proof.
  induction 1 as [|x l S IH F]; intros i j a b L Ha Hb; [destruct i; discriminate|].
  destruct i as [|i].
  - injection Ha as <-. destruct j as [|j]; [injection Hb as <-; lra|]. simpl in Hb. apply nth_error_In in Hb. rewrite Forall_forall in F. apply F, Hb.
  - destruct j as [|j]; [lia|]. simpl in Ha, Hb. apply (IH i j); [lia|assumption|assumption].
Qed.
(** the k-th smallest entry (from 0) *)
Lemma sorted_get v k : (k < length v)%nat -> exists s, nth_error (sort_R v) k = Some s.
Proof. intros H. destruct (nth_error (sort_R v) k) as [s|] eqn:E; [eauto|]. apply nth_error_None in E. rewrite sort_length in E. lia. Qed.

Theorem minmax_laws : forall v, v <> [] -> exists a b, vmin v = Ret a /\ vmax v = Ret b /\ In a v /\ In b v /\
  (forall x, In x v -> a <= x <= b) /\ range v = Ret (b - a) /\ 0 <= b - a.
Proof.
  intros [|x v] NE; [congruence|]. 
  assert (Lo : forall v x, In (fold_left Rmin v x) (x :: v) /\ forall y, In y (x :: v) -> fold_left Rmin v x <= y).
  { clear. induction v as [|z v IH]; intros x; simpl; [split; [tauto|intros y [<-|[]]; lra]|].
    destruct (IH (Rmin x z)) as [I B]. split.
    - destruct I as [E|I]; [|tauto]. rewrite <- E. unfold Rmin. destruct (Rle_dec x z); tauto.
    - intros y [<-|[<-|Hy]].
      + eapply Rle_trans; [apply B; left; reflexivity|apply Rmin_l].
      + eapply Rle_trans; [apply B; left; reflexivity|apply Rmin_r].
      + apply B. right. exact Hy. }
  assert (Hi : forall v x, In (fold_left Rmax v x) (x :: v) /\ forall y, In y (x :: v) -> y <= fold_left Rmax v x).
  { clear. induction v as [|z v IH]; intros x; simpl; [split; [tauto|intros y [<-|[]]; lra]|].
    destruct (IH (Rmax x z)) as [I B]. split.
    - destruct I as [E|I]; [|tauto]. rewrite <- E. unfold Rmax. destruct (Rle_dec x z); tauto.
    - intros y [<-|[<-|Hy]].
      + eapply Rle_trans; [apply (Rmax_l x z)|apply B; left; reflexivity].
      + eapply Rle_trans; [apply (Rmax_r x z)|apply B; left; reflexivity].
      + apply B. right. exact Hy. }
  destruct (Lo v x) as [L1 L2]. destruct (Hi v x) as [H1 H2].
  exists (fold_left Rmin v x), (fold_left Rmax v x). split; [reflexivity|]. split; [reflexivity|]. split; [exact L1|]. split; [exact H1|].
  split; [intros y Hy; split; [apply L2|apply H2]; exact Hy|]. split; [reflexivity|].
  assert (fold_left Rmin v x <= x) by (apply L2; left; reflexivity). assert (x <= fold_left Rmax v x) by (apply H2; left; reflexivity). lra.
Qed.
Print Assumptions minmax_laws.

(** quantile as a function of the index *)
Definition interp_at (l : list R) (t : R) : res R :=
  let! lower := index l (floor_usize t) in
  let! upper := index l (ceil_usize t) in
  Ret (lower + (upper - lower) * (t - IZR (Int_part t))).
Lemma quantile_interp v p : v <> [] -> 0 <= p <= 1 -> quantile v p = interp_at (sort_R v) (p * INR (length v - 1)).
Proof.
  intros NE P. unfold quantile. rewrite nonempty_true by exact NE. cbn [assertb].
  destruct (Rleb_spec 0 p); [|lra]. destruct (Rleb_spec p 1); [|lra]. cbn [andb assertb]. rewrite sort_length. reflexivity.
Qed.

Lemma int_part_unique t (k : Z) : IZR k <= t < IZR k + 1 -> Int_part t = k.
Proof.
  intros H. unfold Int_part. rewrite <- (tech_up t (k + 1)); [lia| |]; rewrite plus_IZR; lra.
Qed.
Lemma int_part_bounds t : IZR (Int_part t) <= t < IZR (Int_part t) + 1.
Proof. pose proof (base_Int_part t). lra. Qed.

(** at an index between k and k+1 *)
Lemma interp_at_frac l t k a b : INR k < t < INR k + 1 -> nth_error l k = Some a -> nth_error l (S k) = Some b ->
  interp_at l t = Ret (a + (b - a) * (t - INR k)).
Proof.
  intros H Ha Hb. unfold interp_at, floor_usize, ceil_usize, index. rewrite INR_IZR_INZ in H.
  rewrite (int_part_unique t (Z.of_nat k)) by lra.
  rewrite (int_part_unique (- t) (- Z.of_nat k - 1)) by (rewrite minus_IZR, opp_IZR; lra).
  replace (Z.to_nat (- (- Z.of_nat k - 1))) with (S k) by lia. rewrite Nat2Z.id, Ha, Hb, <- INR_IZR_INZ. reflexivity.
Qed.
Lemma interp_at_int l k a : nth_error l k = Some a -> interp_at l (INR k) = Ret a.
Proof.
  intros Ha. unfold interp_at, floor_usize, ceil_usize, index. rewrite INR_IZR_INZ.
  rewrite (int_part_unique (IZR (Z.of_nat k)) (Z.of_nat k)) by lra.
  rewrite (int_part_unique (- IZR (Z.of_nat k)) (- Z.of_nat k)) by (rewrite opp_IZR; lra).
  rewrite Z.opp_involutive, Nat2Z.id, Ha. cbn. f_equal. ring.
Qed.
(** every admissible index is one of the two *)
Lemma index_cases n t : 0 <= t <= INR n -> 
  (exists k, (k <= n)%nat /\ t = INR k) \/ (exists k, (k < n)%nat /\ INR k < t < INR k + 1).
Proof.
  intros H. pose proof (int_part_bounds t) as B. 
  assert (K0 : (0 <= Int_part t)%Z).
  { assert (IZR (-1) < IZR (Int_part t)) by (simpl; lra). apply lt_IZR in H0. lia. }
  set (k := Z.to_nat (Int_part t)). assert (Ek : IZR (Int_part t) = INR k) by (unfold k; rewrite INR_IZR_INZ, Z2Nat.id by exact K0; reflexivity).
  rewrite Ek in B. destruct (Req_dec t (INR k)) as [E|N].
  - left. exists k. split; [|exact E]. apply INR_le. lra.
  - right. exists k. split; [|lra]. apply INR_lt. lra.
Qed.

Lemma interp_total v t : v <> [] -> 0 <= t <= INR (length v - 1) -> exists q, interp_at (sort_R v) t = Ret q.
Proof.
  intros NE H. assert (L : (0 < length v)%nat) by (destruct v; [congruence|simpl; lia]).
  destruct (index_cases _ _ H) as [(k & K & ->)|(k & K & Kt)].
  - destruct (sorted_get v k ltac:(lia)) as (s & Es). exists s. apply interp_at_int, Es.
  - destruct (sorted_get v k ltac:(lia)) as (s & Es). destruct (sorted_get v (S k) ltac:(lia)) as (s' & Es').
    eexists. apply (interp_at_frac _ _ k); eassumption.
Qed.
Lemma interp_mono v t u q r : v <> [] -> 0 <= t -> t <= u -> u <= INR (length v - 1) ->
  interp_at (sort_R v) t = Ret q -> interp_at (sort_R v) u = Ret r -> q <= r.
Proof.
  intros NE T0 TU UN Hq Hr. assert (L : (0 < length v)%nat) by (destruct v; [congruence|simpl; lia]).
  pose proof (sort_R_sorted v) as S. 
  assert (Mono := sorted_nth _ S).
  destruct (index_cases (length v - 1) t ltac:(lra)) as [(k & K & Et)|(k & K & Kt)];
  destruct (index_cases (length v - 1) u ltac:(lra)) as [(j & J & Eu)|(j & J & Ju)].
  - subst t u. apply INR_le in TU.
    destruct (sorted_get v k ltac:(lia)) as (a & Ea). destruct (sorted_get v j ltac:(lia)) as (b & Eb).
    rewrite (interp_at_int _ _ _ Ea) in Hq. rewrite (interp_at_int _ _ _ Eb) in Hr. injection Hq as <-. injection Hr as <-.
    apply (Mono k j); assumption.
  - subst t. assert (KJ : (k <= j)%nat) by (assert (H : INR k < INR (Datatypes.S j)) by (rewrite S_INR; lra); apply INR_lt in H; lia).
    destruct (sorted_get v k ltac:(lia)) as (a & Ea). destruct (sorted_get v j ltac:(lia)) as (b & Eb). destruct (sorted_get v (Datatypes.S j) ltac:(lia)) as (c & Ec).
    rewrite (interp_at_int _ _ _ Ea) in Hq. rewrite (interp_at_frac _ _ _ _ _ Ju Eb Ec) in Hr. injection Hq as <-. injection Hr as <-.
    assert (a <= b) by (apply (Mono k j); assumption). assert (b <= c) by (apply (Mono j (Datatypes.S j)); auto). nra.
  - subst u. assert (KJ : (Datatypes.S k <= j)%nat) by (assert (H : INR k < INR j) by lra; apply INR_lt in H; lia).
    destruct (sorted_get v k ltac:(lia)) as (a & Ea). destruct (sorted_get v j ltac:(lia)) as (b & Eb). destruct (sorted_get v (Datatypes.S k) ltac:(lia)) as (c & Ec).
    rewrite (interp_at_frac _ _ _ _ _ Kt Ea Ec) in Hq. rewrite (interp_at_int _ _ _ Eb) in Hr. injection Hq as <-. injection Hr as <-.
    assert (c <= b) by (apply (Mono (Datatypes.S k) j); assumption). assert (a <= c) by (apply (Mono k (Datatypes.S k)); auto). nra.
  - destruct (sorted_get v k ltac:(lia)) as (a & Ea). destruct (sorted_get v j ltac:(lia)) as (b & Eb).
    destruct (sorted_get v (Datatypes.S k) ltac:(lia)) as (a' & Ea'). destruct (sorted_get v (Datatypes.S j) ltac:(lia)) as (b' & Eb').
    rewrite (interp_at_frac _ _ _ _ _ Kt Ea Ea') in Hq. rewrite (interp_at_frac _ _ _ _ _ Ju Eb Eb') in Hr. injection Hq as <-. injection Hr as <-.
    assert (a <= a') by (apply (Mono k (Datatypes.S k)); auto). assert (b <= b') by (apply (Mono j (Datatypes.S j)); auto).
    assert (KJ : (k <= j)%nat). { assert (X : INR k < INR (Datatypes.S j)) by (rewrite S_INR; lra). apply INR_lt in X. lia. }
    destruct (Nat.eq_dec k j) as [->|N].
    + rewrite Ea in Eb. injection Eb as <-. rewrite Ea' in Eb'. injection Eb' as <-. nra.
    + assert (a' <= b) by (apply (Mono (Datatypes.S k) j); [lia|assumption|assumption]). nra.
Qed.

(** number of sample points on either side *)
Definition count_le (v : list R) (s : R) : nat := length (filter (fun x => Rleb x s) v).
Definition count_ge (v : list R) (s : R) : nat := length (filter (fun x => Rleb s x) v).
Lemma perm_filter {A} (f : A -> bool) l1 l2 : Permutation l1 l2 -> Permutation (filter f l1) (filter f l2).
Proof.
  induction 1; simpl; [constructor| | |eapply Permutation_trans; eassumption].
  - destruct (f x); [constructor|]; assumption.
  - destruct (f x), (f y); try reflexivity. apply perm_swap.
Qed.
Lemma filter_all {A} (f : A -> bool) l : (forall y, In y l -> f y = true) -> filter f l = l.
Proof. induction l as [|a l IH]; intros H; simpl; [reflexivity|]. rewrite (H a) by (left; reflexivity). rewrite IH; [reflexivity|]. intros y Hy. apply H. right. exact Hy. Qed.
Lemma kth_counts l : StronglySorted Rle l -> forall k s, nth_error l k = Some s ->
  (k < count_le l s)%nat /\ (length l - k <= count_ge l s)%nat.
Proof.
  intros S. induction S as [|x l S IH F]; intros k s H; [destruct k; discriminate|].
  rewrite Forall_forall in F. unfold count_le, count_ge in *. cbn [filter length]. destruct k as [|k].
  - injection H as <-. destruct (Rleb_spec x x) as [_|N]; [|lra]. cbn [length]. split; [lia|].
    replace (filter (fun y => Rleb x y) l) with l; [lia|]. symmetry. apply filter_all. intros y Hy.
    destruct (Rleb_spec x y) as [_|N]; [reflexivity|]. exfalso. apply N, F, Hy.
  - simpl in H. destruct (IH k s H) as [I1 I2]. assert (x <= s) by (apply F; apply nth_error_In in H; exact H).
    destruct (Rleb_spec x s) as [_|N]; [|lra]. cbn [length]. split; [lia|].
    destruct (Rleb s x); cbn [length]; lia.
Qed.

Theorem quantile_laws : forall v, v <> [] ->
  (forall p, 0 <= p <= 1 -> exists q, quantile v p = Ret q /\
     (forall lo hi, vmin v = Ret lo -> vmax v = Ret hi -> lo <= q <= hi)) /\
  (forall p, ~ (0 <= p <= 1) -> quantile v p = Panic) /\
  (forall p p' q q', 0 <= p -> p <= p' -> p' <= 1 -> quantile v p = Ret q -> quantile v p' = Ret q' -> q <= q') /\
  quantile v 0 = vmin v /\ quantile v 1 = vmax v /\
  (* the sample point with k points below it and n-1-k above it *)
  (forall k, (k < length v)%nat -> exists s, quantile v (INR k / INR (length v - 1)) = Ret s /\ In s v /\
     ((1 < length v)%nat -> (k < count_le v s)%nat /\ (length v - k <= count_ge v s)%nat)) /\
  (forall w, Permutation v w -> forall p, quantile w p = quantile v p) /\
  median v = quantile v (1/2).
Proof.
  intros v NE. assert (L : (0 < length v)%nat) by (destruct v; [congruence|simpl; lia]).
  pose proof (sort_R_sorted v) as S. assert (Mono := sorted_nth _ S).
  assert (N0 : 0 <= INR (length v - 1)) by apply pos_INR.
  assert (Idx : forall p, 0 <= p <= 1 -> 0 <= p * INR (length v - 1) <= INR (length v - 1)) by (intros; nra).
  assert (InS : forall k s, nth_error (sort_R v) k = Some s -> In s v).
  { intros k s E. apply nth_error_In in E. eapply Permutation_in; [apply sort_R_perm|exact E]. }
  assert (First : quantile v 0 = vmin v).
  { rewrite quantile_interp by (assumption || lra). rewrite Rmult_0_l. destruct (sorted_get v 0 L) as (s & Es).
    change 0 with (INR 0). rewrite (interp_at_int _ _ _ Es). destruct (minmax_laws v NE) as (a & b & Ea & _ & Ia & _ & B & _). rewrite Ea. f_equal.
    apply Rle_antisym.
    - assert (Ia' : In a (sort_R v)) by (eapply Permutation_in; [apply Permutation_sym, sort_R_perm|exact Ia]).
      apply In_nth_error in Ia' as (j & Ej). apply (Mono 0%nat j); [lia|exact Es|exact Ej].
    - apply B, (InS 0%nat), Es. }
  assert (Last : quantile v 1 = vmax v).
  { rewrite quantile_interp by (assumption || lra). rewrite Rmult_1_l. destruct (sorted_get v (length v - 1) ltac:(lia)) as (s & Es).
    rewrite (interp_at_int _ _ _ Es). destruct (minmax_laws v NE) as (a & b & _ & Eb & _ & Ib & B & _). rewrite Eb. f_equal.
    apply Rle_antisym.
    - apply B, (InS (length v - 1)%nat), Es.
    - assert (Ib' : In b (sort_R v)) by (eapply Permutation_in; [apply Permutation_sym, sort_R_perm|exact Ib]).
      apply In_nth_error in Ib' as (j & Ej). assert (j < length v)%nat by (rewrite <- sort_length; apply nth_error_Some; rewrite Ej; discriminate).
      apply (Mono j (length v - 1)%nat); [lia|exact Ej|exact Es]. }
  assert (Mon : forall p p' q q', 0 <= p -> p <= p' -> p' <= 1 -> quantile v p = Ret q -> quantile v p' = Ret q' -> q <= q').
  { intros p p' q q' P0 PP P1 Hq Hq'. rewrite quantile_interp in Hq, Hq' by (assumption || lra).
    apply (interp_mono v (p * INR (length v - 1)) (p' * INR (length v - 1))); try assumption; nra. }
  split; [|split; [|split; [exact Mon|split; [exact First|split; [exact Last|split; [|split]]]]]].
  - intros p P. destruct (interp_total v (p * INR (length v - 1)) NE (Idx p P)) as (q & Eq). exists q.
    assert (Hq : quantile v p = Ret q) by (rewrite quantile_interp by assumption; exact Eq).
    split; [exact Hq|]. intros lo hi Hlo Hhi. split.
    + apply (Mon 0 p); [lra|lra|lra|rewrite First; exact Hlo|exact Hq].
    + apply (Mon p 1); [lra|lra|lra|exact Hq|rewrite Last; exact Hhi].
  - intros p P. unfold quantile. rewrite nonempty_true by exact NE. cbn [assertb].
    destruct (Rleb_spec 0 p); [|reflexivity]. destruct (Rleb_spec p 1); [|reflexivity]. exfalso. apply P. split; assumption.
  - intros k K. destruct (sorted_get v k K) as (s & Es). exists s.
    destruct (Nat.eq_dec (length v) 1) as [E1|N1].
    + assert (k = 0)%nat by lia. subst k. replace (INR 0 / INR (length v - 1)) with 0 by (simpl; unfold Rdiv; ring).
      split; [|split; [eapply InS, Es|lia]]. rewrite quantile_interp by (assumption || lra). rewrite Rmult_0_l. change 0 with (INR 0). apply interp_at_int, Es.
    + assert (N1' : 0 < INR (length v - 1)) by (apply lt_0_INR; lia).
      assert (KN : INR k <= INR (length v - 1)) by (apply le_INR; lia).
      split; [|split; [eapply InS, Es|intros _]].
      * rewrite quantile_interp; [|assumption|].
        { replace (INR k / INR (length v - 1) * INR (length v - 1)) with (INR k) by (field; lra). apply interp_at_int, Es. }
        split; [apply Rmult_le_pos; [apply pos_INR|left; apply Rinv_0_lt_compat; exact N1']|].
        apply Rmult_le_reg_r with (INR (length v - 1)); [exact N1'|]. unfold Rdiv. rewrite Rmult_assoc, Rinv_l by lra. lra.
      * destruct (kth_counts _ S k s Es) as [C1 C2]. rewrite sort_length in C2. unfold count_le, count_ge in *.
        rewrite (Permutation_length (perm_filter _ _ _ (sort_R_perm v))) in C1.
        rewrite (Permutation_length (perm_filter _ _ _ (sort_R_perm v))) in C2. split; assumption.
  - intros w P p. unfold quantile. rewrite (sort_perm w v) by (apply Permutation_sym, P).
    destruct v; [congruence|]. destruct w; [apply Permutation_sym, Permutation_nil in P; discriminate|]. reflexivity.
  - rewrite quantile_interp by (assumption || lra). unfold median. rewrite nonempty_true by exact NE. cbn [assertb].
    rewrite sort_length. destruct (Nat.eqb_spec (length v mod 2) 0) as [E|E].
    + pose proof (Nat.div_mod (length v) 2 ltac:(lia)) as D. rewrite E in D. set (m := (length v / 2)%nat) in *.
      assert (M : (0 < m)%nat) by lia. destruct (sorted_get v (m - 1) ltac:(lia)) as (a & Ea). destruct (sorted_get v m ltac:(lia)) as (b & Eb).
      unfold index. rewrite Ea, Eb. cbn [unwrap bind]. symmetry.
      assert (Em : INR (length v - 1) = 2 * INR (m - 1) + 1).
      { replace (length v - 1)%nat with (2 * (m - 1) + 1)%nat by lia. rewrite plus_INR, mult_INR. simpl. ring. }
      rewrite (interp_at_frac _ _ (m - 1) a b); [f_equal; rewrite Em; field|rewrite Em; lra|exact Ea|].
      replace (Datatypes.S (m - 1)) with m by lia. exact Eb.
    + pose proof (Nat.div_mod (length v) 2 ltac:(lia)) as D. pose proof (Nat.mod_upper_bound (length v) 2 ltac:(lia)). set (m := (length v / 2)%nat) in *.
      destruct (sorted_get v m ltac:(lia)) as (a & Ea). unfold index. rewrite Ea. cbn [unwrap]. symmetry.
      replace (1 / 2 * INR (length v - 1)) with (INR m); [apply interp_at_int, Ea|].
      replace (length v - 1)%nat with (2 * m)%nat by lia. rewrite mult_INR. simpl. field.
Qed.
Print Assumptions quantile_laws.
Example quantile_case : [3; 1; 2] <> [] /\ quantile [3; 1; 2] (1/2) = Ret 2.
Proof.
  split; [discriminate|]. destruct (quantile_laws [3; 1; 2]) as (_ & _ & _ & _ & _ & _ & _ & M); [discriminate|]. rewrite <- M.
  unfold median. cbn [nonempty assertb].
  replace (sort_R [3; 1; 2]) with [1; 2; 3]; [reflexivity|].
  symmetry. apply sorted_unique; [apply sort_R_sorted| |].
  - repeat constructor; lra.
  - eapply Permutation_trans; [apply sort_R_perm|]. apply perm_trans with [1; 3; 2]; [apply perm_swap|apply perm_skip, perm_swap].
Qed.

(** the interquartile range: total, between 0 and the range, order independent... *)
Theorem iqr_bounds : forall v, v <> [] -> exists q r, interquartile_range v = Ret q /\ range v = Ret r /\ 0 <= q <= r /\
  (forall w, Permutation v w -> interquartile_range w = Ret q).
Proof.
  intros v NE. assert (L : (0 < length v)%nat) by (destruct v; [congruence|simpl; lia]).
  pose proof (sort_R_sorted v) as S. assert (Mono := sorted_nth _ S).
  destruct (sorted_get v (length v / 4)) as (a & Ea); [apply Nat.div_lt; lia|].
  destruct (sorted_get v (length v * 3 / 4)) as (b & Eb); [apply Nat.div_lt_upper_bound; lia|].
  destruct (minmax_laws v NE) as (lo & hi & _ & _ & _ & _ & B & R & _).
  assert (E : interquartile_range v = Ret (b - a)).
  { unfold interquartile_range, index. rewrite nonempty_true by exact NE. cbn [assertb]. rewrite sort_length, Ea, Eb. reflexivity. }
  exists (b - a), (hi - lo). split; [exact E|]. split; [exact R|]. split.
  - assert (a <= b) by (apply (Mono (length v / 4)%nat (length v * 3 / 4)%nat); [apply Nat.div_le_mono; lia|assumption|assumption]).
    assert (Ia : In a v) by (eapply Permutation_in; [apply sort_R_perm|eapply nth_error_In, Ea]).
    assert (Ib : In b v) by (eapply Permutation_in; [apply sort_R_perm|eapply nth_error_In, Eb]).
    pose proof (B a Ia). pose proof (B b Ib). lra.
  - intros w P. rewrite <- E. unfold interquartile_range. rewrite (sort_perm w v) by (apply Permutation_sym, P).
    destruct v; [congruence|]. destruct w; [apply Permutation_sym, Permutation_nil in P; discriminate|]. reflexivity.
Qed.
Print Assumptions iqr_bounds.
(** ... but not the difference of the 0.75 and 0.25 quantiles of the same library *)
Theorem iqr_quantile_refuted : exists v q a b, interquartile_range v = Ret q /\ quantile v (1/4) = Ret a /\ quantile v (3/4) = Ret b /\ q <> b - a.
Proof.
  assert (Srt : sort_R [1; 2; 3; 4] = [1; 2; 3; 4]).
  { apply sorted_unique; [apply sort_R_sorted| |apply sort_R_perm]. repeat constructor; lra. }
  exists [1; 2; 3; 4], 2, (1 + (2 - 1) * (3/4)), (3 + (4 - 3) * (1/4)). split; [|split; [|split]].
  - unfold interquartile_range. rewrite Srt. cbn. f_equal. lra.
  - rewrite quantile_interp by (discriminate || lra). rewrite Srt. rewrite (interp_at_frac _ _ 0 1 2); [f_equal; simpl; lra|simpl; lra|reflexivity|reflexivity].
  - rewrite quantile_interp by (discriminate || lra). rewrite Srt. rewrite (interp_at_frac _ _ 2 3 4); [f_equal; simpl; lra|simpl; lra|reflexivity|reflexivity].
  - lra.
Qed.
Print Assumptions iqr_quantile_refuted.

(** ** C52: sequences *)

(** [seq]: the arithmetic progression from [start] by [step] up to and not beyond [end] *)
Lemma seq_loop_spec fuel : forall x e step, 0 < step -> e < x + INR fuel * step - step ->
  exists l, seq_loop (S fuel) x e step = Ret l /\
    (forall i, (i < length l)%nat -> nth_error l i = Some (x + INR i * step)) /\
    (forall i, (i < length l)%nat <-> x + INR i * step <= e).
Proof.
  induction fuel as [|fuel IH]; intros x e step St F.
  - simpl in F. cbn [seq_loop]. destruct (Rleb_spec x e) as [L|N]; [lra|]. exists []. split; [reflexivity|].
    split; [simpl; lia|]. intros i. simpl length. split; [lia|]. intros H. pose proof (pos_INR i). nra.
  - change (seq_loop (S (S fuel)) x e step) with (if Rleb x e then let! r := seq_loop (S fuel) (x + step) e step in Ret (x :: r) else Ret []).
    destruct (Rleb_spec x e) as [L|N].
    + destruct (IH (x + step) e step St) as (l & E & H1 & H2); [rewrite S_INR in F; lra|].
      rewrite E. cbn [bind]. exists (x :: l). split; [reflexivity|]. split.
      * intros [|i] H; cbn [nth_error length] in *; [f_equal; simpl; ring|]. rewrite H1 by lia. f_equal. rewrite S_INR. ring.
      * intros [|i]; cbn [length]; [simpl; split; [lra|lia]|]. rewrite S_INR. specialize (H2 i).
        split; [intros H; assert (x + step + INR i * step <= e) by (apply H2; lia); lra|intros H; assert (i < length l)%nat by (apply H2; lra); lia].
    + exists []. split; [reflexivity|]. split; [simpl; lia|]. intros i. simpl length. split; [lia|]. intros H. pose proof (pos_INR i). nra.
Qed.
Theorem seq_spec : forall fuel start e step, 0 < step -> start <= e -> e < start + INR fuel * step - step ->
  exists l, seq_R (S fuel) start e step = Ret l /\
    (forall i, (i < length l)%nat -> nth_error l i = Some (start + INR i * step)) /\
    (forall i, (i < length l)%nat <-> start + INR i * step <= e).
Proof.
  intros fuel start e step St SE F. unfold seq_R. destruct (Reqb_spec step 0); [lra|].
  destruct (Rltb_spec (-1) ((e - start) / step)) as [_|N].
  - cbn [negb andb assertb]. apply seq_loop_spec; assumption.
  - exfalso. apply N. assert (0 <= (e - start) / step) by (apply Rmult_le_pos; [lra|left; apply Rinv_0_lt_compat; exact St]). lra.
Qed.
Print Assumptions seq_spec.
Example seq_case : 0 < 2 /\ 0 <= 10 /\ 10 < 0 + INR 7 * 2 - 2.
Proof. simpl. lra. Qed.
(** with a negative step and [start = end] the loop of the code never ends: no
    amount of fuel suffices *)
Theorem seq_negative_step_diverges : exists start e step, forall fuel, seq_R fuel start e step = NoFuel.
Proof.
  exists 0, 0, (-1). intros fuel. unfold seq_R. destruct (Reqb_spec (-1) 0); [lra|].
  destruct (Rltb_spec (-1) ((0 - 0) / -1)) as [_|N]; [|exfalso; apply N; unfold Rdiv; lra]. cbn [negb andb assertb].
  assert (G : forall fuel x, x <= 0 -> seq_loop fuel x 0 (-1) = NoFuel).
  { clear. induction fuel as [|fuel IH]; intros x H; [reflexivity|]. cbn [seq_loop]. destruct (Rleb_spec x 0); [|lra].
    rewrite IH by lra. reflexivity. }
  apply G. lra.
Qed.
Print Assumptions seq_negative_step_diverges.

Theorem linspace_spec : forall start e n, start < e -> (2 <= n)%nat ->
  exists l, linspace start e n = Ret (Some l) /\ length l = n /\
    nth_error l 0 = Some start /\ nth_error l (n - 1) = Some e /\
    (forall i x y, nth_error l i = Some x -> nth_error l (S i) = Some y -> y - x = (e - start) / INR (n - 1)) /\
    (forall i x, nth_error l i = Some x -> start <= x <= e).
Proof.
  intros start e n SE N. unfold linspace. destruct (Rltb_spec start e) as [_|]; [|lra].
  replace (0 <? n)%nat with true by (symmetry; apply Nat.ltb_lt; lia). cbn [andb assertb].
  destruct (Nat.eqb_spec n 1); [lia|]. set (step := (e - start) / INR (n - 1)).
  assert (N1 : 0 < INR (n - 1)) by (apply lt_0_INR; lia).
  assert (Get : forall i, (i < n)%nat -> nth_error (map (fun i => start + INR i * step) (seq 0 n)) i = Some (start + INR i * step)).
  { intros i H. rewrite nth_error_map. rewrite (nth_error_nth' _ 0%nat) by (rewrite seq_length; exact H). rewrite seq_nth by exact H. reflexivity. }
  assert (Lt : forall i x, nth_error (map (fun i => start + INR i * step) (seq 0 n)) i = Some x -> (i < n)%nat).
  { intros i x H. rewrite <- (seq_length n 0), <- (map_length (fun i => start + INR i * step)). apply nth_error_Some. rewrite H. discriminate. }
  assert (St : 0 < step) by (apply Rdiv_lt_0_compat; lra).
  assert (En : INR (n - 1) * step = e - start) by (unfold step; field; lra).
  eexists. split; [reflexivity|]. split; [rewrite map_length, seq_length; reflexivity|].
  split; [rewrite Get by lia; f_equal; simpl; ring|]. split; [rewrite Get by lia; f_equal; lra|]. split.
  - intros i x y Hx Hy. pose proof (Lt _ _ Hy). rewrite Get in Hx by lia. rewrite Get in Hy by lia. assert (Ex : x = start + INR i * step) by congruence. assert (Ey : y = start + INR (S i) * step) by congruence.
    rewrite Ex, Ey. fold step. rewrite S_INR. ring.
  - intros i x Hx. pose proof (Lt _ _ Hx). rewrite Get in Hx by lia. injection Hx as <-.
    assert (0 <= INR i) by apply pos_INR. assert (INR i <= INR (n - 1)) by (apply le_INR; lia). split; nra.
Qed.
Print Assumptions linspace_spec.
(** one point: the code divides by zero and returns a NaN instead of [start] *)
Theorem linspace_one : forall start e, start < e -> linspace start e 1 = Ret None.
Proof. intros start e H. unfold linspace. destruct (Rltb_spec start e); [reflexivity|lra]. Qed.
Print Assumptions linspace_one.

Theorem cumsum_spec : forall v, length (cumsum v) = length v /\
  forall i, (i < length v)%nat -> nth_error (cumsum v) i = Some (rsum (firstn (S i) v)).
Proof.
  assert (G : forall v a, length (scan_sum a v) = length v /\ forall i, (i < length v)%nat -> nth_error (scan_sum a v) i = Some (a + rsum (firstn (S i) v))).
  { induction v as [|x v IH]; intros a; [split; [reflexivity|simpl; lia]|]. destruct (IH (a + x)) as [L H].
    split; [simpl; lia|]. intros [|i] Hi; cbn [scan_sum nth_error].
    - f_equal. unfold rsum. simpl. ring.
    - rewrite H by (simpl in Hi; lia). f_equal. rewrite (firstn_cons (S i) x v). unfold rsum. cbn [fold_right]. ring. }
  intros v. destruct (G v 0) as [L H]. split; [exact L|]. intros i Hi. unfold cumsum. rewrite H by exact Hi. f_equal. ring.
Qed.
Print Assumptions cumsum_spec.
Theorem rep_spec : forall x n, length (rep x n) = n /\ forall y, In y (rep x n) -> y = x.
Proof. intros x n. split; [apply repeat_length|apply repeat_spec]. Qed.
Print Assumptions rep_spec.

(** ** C57: risk-adjusted ratios under leverage *)

(** the measures of the portfolio that holds [k] times the original, financed at
    the risk-free rate *)
Definition levered (k : R) (m : measures) : measures :=
  Measures (m_r m + k * (m_rp m - m_r m)) (m_r m) (k * m_beta m) (k * m_sigma m) (k * m_down m) (m_var m) (m_rm m).
Lemma fdiv_scale k a b : k <> 0 -> fdiv (k * a) (k * b) = fdiv a b.
Proof.
  intros K. unfold fdiv. destruct (Reqb_spec b 0) as [E|N]; destruct (Reqb_spec (k * b) 0) as [E'|N'].
  - reflexivity.
  - exfalso. apply N'. rewrite E. ring.
  - exfalso. apply Rmult_integral in E'. tauto.
  - f_equal. field. split; assumption.
Qed.
Theorem ratios_leverage : forall m k, k <> 0 ->
  treynors_ratio (levered k m) = treynors_ratio m /\
  sharpe_ratio (levered k m) = sharpe_ratio m /\
  sortino_ratio (levered k m) = sortino_ratio m /\
  jensens_alpha (levered k m) = k * jensens_alpha m /\
  (* finite exactly when the risk measure is not zero *)
  (sharpe_ratio m = None <-> m_sigma m = 0) /\
  (* zero alpha exactly on the security market line *)
  (jensens_alpha m = 0 <-> m_rp m = m_r m + m_beta m * (m_rm m - m_r m)).
Proof.
  intros m k K. unfold treynors_ratio, sharpe_ratio, sortino_ratio, jensens_alpha, levered.
  cbn [m_rp m_r m_beta m_sigma m_down m_var m_rm].
  replace (m_r m + k * (m_rp m - m_r m) - m_r m) with (k * (m_rp m - m_r m)) by ring.
  split; [apply fdiv_scale, K|]. split; [apply fdiv_scale, K|]. split; [apply fdiv_scale, K|].
  split; [ring|]. split; [|lra]. unfold fdiv. destruct (Reqb_spec (m_sigma m) 0); split; intros; congruence.
Qed.
Print Assumptions ratios_leverage.
(** the Burke ratio lacks the square root of the drawdown sum, and depends on leverage *)
Theorem burke_leverage_refuted : exists m k dd, 0 < k /\
  burke_ratio (levered k m) (map (Rmult k) dd) <> burke_ratio m dd.
Proof.
  exists (Measures 1 0 1 1 1 1 1), 2, [1]. split; [lra|]. unfold burke_ratio, levered, fdiv, rsum. cbn [m_rp m_r map fold_right].
  destruct (Reqb_spec ((2 * 1) ^ 2 + 0) 0); [lra|]. destruct (Reqb_spec (1 ^ 2 + 0) 0); [lra|]. intros H. injection H as H. lra.
Qed.
Print Assumptions burke_leverage_refuted.
