(** Property C112: nearest neighbours in binary64. *)
From Coq Require Import ZArith Reals List Bool Lia Lra Psatz Permutation Sorted.
From Flocq Require Import Core.Core IEEE754.BinarySingleNaN.
From Verif Require Import Res F64Model F64RootModel F64Base F64Order F64Root F64Sum F64Quad F64Day F64FdGrid F64KnnModel.
Import ListNotations.
Local Open Scope R_scope.

(** ** No distance between finite points is a NaN *)
Definition pos64 (x : f64) : Prop := fle zero x = true.
Lemma pos_num x : pos64 x -> num x. Proof. intros H. apply (fle_num _ _ H). Qed.
Lemma nn_pos x : nn x -> num x -> pos64 x. Proof. intros [H|H] N; [unfold num in N; congruence|exact H]. Qed.
Lemma pos_nn x : pos64 x -> nn x. Proof. intros H. right. exact H. Qed.
Lemma pos_ext x : pos64 x -> 0 <= ext x.
Proof. intros H. pose proof (pos_num _ H) as N. apply (fle_ext zero x eq_refl N) in H. exact H. Qed.
Lemma pos_fin x : fin x -> pos64 x -> 0 <= val x. Proof. intros F H. apply pos_ext in H. rewrite ext_fin in H by exact F. exact H. Qed.
Lemma pos_sq x : num x -> pos64 (sq64 x).
Proof.
  intros N. apply nn_pos; [apply nn_sq|]. unfold num, sq64. destruct x as [s|s| |s m e H]; try reflexivity; [discriminate N|]. set (x := B754_finite s m e H).
  pose proof (Bmult_correct 53 1024 _ _ mode_NE x x) as C. revert C. case Rlt_bool_spec; intros L C; [|apply (over_not_nan _ _ C)]. destruct C as (_ & D & _). apply fin_not_nan. exact D.
Qed.
Lemma pos_add x y : pos64 x -> pos64 y -> pos64 (fadd x y).
Proof.
  intros X Y. apply nn_pos; [apply nn_add; apply pos_nn; assumption|]. unfold num. pose proof (pos_num _ Y) as NY. destruct (is_finite x) eqn:FX; [apply fadd_not_nan; assumption|].
  destruct x as [s|s| |s m e H]; try discriminate. destruct s; [discriminate X|]. destruct y as [s|s| |s m e H]; try reflexivity; try discriminate NY. destruct s; [discriminate Y|reflexivity].
Qed.
Lemma pos_sqrt x : pos64 x -> pos64 (fsqrt x).
Proof.
  intros X. apply nn_pos; [apply nn_sqrt, pos_nn, X|]. destruct x as [s|s| |s m e H]; try reflexivity; [destruct s; [discriminate X|reflexivity]|discriminate X|].
  destruct s; [exfalso; pose proof (pos_fin (B754_finite true m e H) eq_refl X) as P; apply (Rle_not_lt _ _ P); apply F2R_lt_0; reflexivity|].
  destruct (Bsqrt_correct 53 1024 p53 pe53 mode_NE (B754_finite false m e H)) as (_ & D & _). apply fin_not_nan. exact D.
Qed.
Lemma pos_abs x : num x -> pos64 (fabs x).
Proof.
  intros N. destruct x as [s|s| |s m e H]; try reflexivity. discriminate N.
Qed.
Lemma pos_fold {A} (f : A -> f64) l : (forall x, In x l -> pos64 (f x)) -> forall a, pos64 a -> pos64 (fold_left (fun acc x => fadd acc (f x)) l a).
Proof. induction l as [|x l IH]; intros H a P; cbn; [exact P|]. apply IH; [intros y Y; apply H; right; exact Y|]. apply pos_add; [exact P|]. apply H. left. reflexivity. Qed.

(** what is asked of [powi] and [powf]: no NaN and no negative number out of a number that is not negative *)
Definition sane_powers (powi64 : f64 -> Z -> f64) (powf64 : f64 -> f64 -> f64) : Prop :=
  (forall x p, pos64 x -> pos64 (powi64 x p)) /\ (forall x y, pos64 x -> num y -> pos64 (powf64 x y)).
Lemma inv_num p : num (fdiv one (lit p 0)).
Proof.
  assert (LN : num (lit p 0)). { unfold lit. pose proof (binary_normalize_correct 53 1024 p53 pe53 mode_NE p 0 false) as C. cbv zeta in C. revert C. case Rlt_bool_spec; intros L C; [apply fin_not_nan; apply C|apply (over_not_nan _ _ C)]. }
  set (y := lit p 0) in *. clearbody y. destruct (Req_dec (val y) 0) as [Z|Z].
  - destruct y as [s|s| |s m e H]; try discriminate LN; try reflexivity. exfalso. destruct s; cbn in Z; [pose proof (F2R_lt_0 radix2 (Float radix2 (Zneg m) e) eq_refl)|pose proof (F2R_gt_0 radix2 (Float radix2 (Zpos m) e) eq_refl)]; lra.
  - pose proof (Bdiv_correct 53 1024 _ _ mode_NE one y Z) as C. revert C. case Rlt_bool_spec; intros L C; [|apply (over_not_nan _ _ C)]. destruct C as (_ & D & _). apply fin_not_nan. unfold fin, fdiv. rewrite D. reflexivity.
Qed.
Lemma sub_num x y : fin x -> fin y -> num (fsub x y). Proof. intros X Y. apply fsub_not_nan; [exact X|apply fin_not_nan, Y]. Qed.

Section Knn.
  Variables (powi64 : f64 -> Z -> f64) (powf64 : f64 -> f64 -> f64).
  Hypothesis SANE : sane_powers powi64 powf64.
  Notation distance64 := (distance64 powi64 powf64).
  Notation distances64 := (distances64 powi64 powf64).
  Notation neighbors64 := (neighbors64 powi64 powf64).
  Notation predict_one64 := (predict_one64 powi64 powf64).

  Lemma distance_pos m a b : Forall fin a -> Forall fin b -> pos64 (distance64 m a b).
  Proof.
    intros HA HB. rewrite Forall_forall in HA, HB. destruct SANE as [PI PF].
    assert (SUB : forall ab, In ab (combine a b) -> num (fsub (fst ab) (snd ab))) by (intros [x y] I; apply sub_num; [apply HA, (in_combine_l _ _ _ _ I)|apply HB, (in_combine_r _ _ _ _ I)]).
    assert (LP : forall p, pos64 (lp_sum64 powi64 p a b)) by (intros p; apply (pos_fold (fun ab => powi64 (fabs (fsub (fst ab) (snd ab))) p)); [intros ab I; apply PI, pos_abs, SUB, I|reflexivity]).
    destruct m as [| |p]; cbn.
    - apply pos_sqrt. apply (pos_fold (fun ab => sq64 (fsub (fst ab) (snd ab)))); [intros ab I; apply pos_sq, SUB, I|reflexivity].
    - apply PF; [apply LP|apply (inv_num 1)].
    - apply PF; [apply LP|apply inv_num].
  Qed.
End Knn.

(** ** Sorting by distance *)
Lemma kinsert_snd e l : rmap (map snd) (kinsert e l) = finsert (snd e) (map snd l).
Proof.
  induction l as [|h t IH]; [reflexivity|]. cbn [kinsert map finsert]. destruct (fcmp (snd e) (snd h)) as [[]|]; try reflexivity. cbn [unwrap bind]. rewrite <- IH. destruct (kinsert e t); reflexivity.
Qed.
Lemma ksort_snd l : rmap (map snd) (ksort l) = fsort (map snd l).
Proof.
  induction l as [|e t IH]; [reflexivity|]. cbn [ksort map fsort]. rewrite <- IH. destruct (ksort t); try reflexivity. cbn [rmap bind]. apply kinsert_snd.
Qed.
Definition before64 (a b : nat * f64) : Prop := ext (snd a) < ext (snd b) \/ (ext (snd a) = ext (snd b) /\ (fst a < fst b)%nat).
Lemma before64_trans a b c : before64 a b -> before64 b c -> before64 a c.
Proof. unfold before64. intros [H|[H1 H2]] [G|[G1 G2]]; [left; lra|left; lra|left; lra|right; split; [lra|lia]]. Qed.
Lemma kinsert_num e l : num (snd e) -> Forall (fun x => num (snd x)) l -> StronglySorted before64 l -> (forall x, In x l -> (fst e < fst x)%nat) ->
  exists r, kinsert e l = Ret r /\ Permutation (e :: l) r /\ StronglySorted before64 r.
Proof.
  intros N. induction l as [|h t IH]; intros A S L; cbn [kinsert]; [exists [e]; repeat split; repeat constructor|].
  inversion A as [|? ? A1 A2]; subst. pose proof S as S0. apply StronglySorted_inv in S as [S F]. rewrite fcmp_ext by assumption. cbn [unwrap bind].
  assert (CONS : ext (snd e) <= ext (snd h) -> StronglySorted before64 (e :: h :: t)).
  { intros K. assert (B : before64 e h) by (destruct K as [K|K]; [left; exact K|right; split; [exact K|apply L; left; reflexivity]]). constructor; [exact S0|]. constructor; [exact B|].
    rewrite Forall_forall in *. intros x X. apply before64_trans with h; [exact B|apply F, X]. }
  case Rcompare_spec; intros K.
  - exists (e :: h :: t). split; [reflexivity|]. split; [reflexivity|]. apply CONS. lra.
  - exists (e :: h :: t). split; [reflexivity|]. split; [reflexivity|]. apply CONS. lra.
  - destruct (IH A2 S ltac:(intros x X; apply L; right; exact X)) as (r & E & P & Q). rewrite E. cbn [bind]. exists (h :: r). split; [reflexivity|]. split; [rewrite perm_swap; constructor; exact P|].
    constructor; [exact Q|]. rewrite Forall_forall in *. intros x X. apply (Permutation_in _ (Permutation_sym P)) in X. destruct X as [<-|X]; [left; exact K|apply F, X].
Qed.
Lemma ksort_num l : Forall (fun x => num (snd x)) l -> StronglySorted (fun a b : nat * f64 => (fst a < fst b)%nat) l ->
  exists r, ksort l = Ret r /\ Permutation l r /\ StronglySorted before64 r.
Proof.
  induction l as [|e t IH]; intros A S; [exists []; repeat split; constructor|]. inversion A as [|? ? A1 A2]; subst. apply StronglySorted_inv in S as [S F]. destruct (IH A2 S) as (r & E & P & Q).
  rewrite Forall_forall in F. destruct (kinsert_num e r A1) as (s & E1 & P1 & Q1); [| |intros x X; apply F, (Permutation_in _ (Permutation_sym P)), X|].
  - rewrite Forall_forall in *. intros x X. apply A2, (Permutation_in _ (Permutation_sym P)), X.
  - exact Q.
  - exists s. cbn [ksort]. rewrite E. cbn [bind]. split; [exact E1|]. split; [rewrite <- P1; constructor; exact P|exact Q1].
Qed.
Lemma seq_sorted (f : nat -> nat * f64) : (forall i, fst (f i) = i) -> forall n s, StronglySorted (fun a b : nat * f64 => (fst a < fst b)%nat) (map f (seq s n)).
Proof.
  intros Hf. induction n as [|n IH]; intros s; cbn; constructor; [apply IH|]. apply Forall_forall. intros x Hx. apply in_map_iff in Hx. destruct Hx as (i & <- & Hi). apply in_seq in Hi. rewrite !Hf. lia.
Qed.
Lemma sorted_rel {A} (P : A -> A -> Prop) l1 : forall l2, StronglySorted P (l1 ++ l2) -> forall a b, In a l1 -> In b l2 -> P a b.
Proof.
  induction l1 as [|h t IH]; intros l2 S a b Ha Hb; cbn in *; [contradiction|]. apply StronglySorted_inv in S as [S F]. rewrite Forall_forall in F. destruct Ha as [<-|Ha]; [apply F, in_or_app; right; exact Hb|]. apply (IH _ S); assumption.
Qed.

Section Neighbours.
  Variables (powi64 : f64 -> Z -> f64) (powf64 : f64 -> f64 -> f64).
  Notation distance64 := (distance64 powi64 powf64).
  Notation distances64 := (distances64 powi64 powf64).
  Notation neighbors64 := (neighbors64 powi64 powf64).
  Notation predict_one64 := (predict_one64 powi64 powf64).
  Definition dist_to (c : knn64) (q : list f64) (i : nat) : f64 := distance64 (km64 c) (nth i (kx64 c) []) q.

  Lemma distances_len c q : length (distances64 c q) = length (kx64 c). Proof. unfold F64KnnModel.distances64. rewrite map_length, seq_length. reflexivity. Qed.
  Lemma sort_cases c q : (ksort (distances64 c q) = Panic /\ (2 <= length (kx64 c))%nat /\ exists i, (i < length (kx64 c))%nat /\ dist_to c q i = nan) \/
    exists s, ksort (distances64 c q) = Ret s /\ Permutation (distances64 c q) s /\ StronglySorted before64 s /\ ((2 <= length (kx64 c))%nat -> forall i, (i < length (kx64 c))%nat -> num (dist_to c q i)).
  Proof.
    destruct (Exists_dec (fun x : nat * f64 => ~ num (snd x)) (distances64 c q)) as [D|D]. { intros z. unfold num. destruct (is_nan (snd z)); [left|right]; congruence. }
    - destruct (Nat.le_gt_cases 2 (length (kx64 c))) as [L|L].
      + left. split; [|split; [exact L|]].
        * pose proof (ksort_snd (distances64 c q)) as K. rewrite sort_nan in K; [|rewrite map_length, distances_len; exact L|].
          -- destruct (ksort (distances64 c q)); try discriminate; reflexivity.
          -- apply Exists_exists in D as (x & X & N). apply Exists_exists. exists (snd x). split; [apply in_map; exact X|exact N].
        * apply Exists_exists in D as (x & X & N). apply in_map_iff in X as (i & <- & I). apply in_seq in I. exists i. split; [lia|]. cbn [snd] in N. unfold dist_to. destruct (distance64 (km64 c) (nth i (kx64 c) []) q); try (exfalso; apply N; reflexivity). reflexivity.
      + right. pose proof (distances_len c q) as E. destruct (distances64 c q) as [|x [|y t]] eqn:Q; cbn in E; [| |lia]; [exists []|exists [x]]; cbn; (split; [reflexivity|]); (split; [reflexivity|]); (split; [repeat constructor|]); intros K; lia.
    - right. assert (N : Forall (fun x : nat * f64 => num (snd x)) (distances64 c q)). { apply Forall_forall. intros z Z. destruct (num_dec (snd z)); auto. exfalso. apply D. apply Exists_exists. eauto. }
      destruct (ksort_num _ N) as (s & E & P & S); [apply seq_sorted; reflexivity|]. exists s. split; [exact E|]. split; [exact P|]. split; [exact S|]. intros _ i I. rewrite Forall_forall in N.
      apply (N (i, dist_to c q i)). unfold F64KnnModel.distances64. apply in_map_iff. exists i. split; [reflexivity|]. apply in_seq. lia.
  Qed.

  (** The neighbours are the [k] samples of smallest computed distance, each once, nearest first with ties
      by position; the search panics exactly when there are two samples or more and a distance is a NaN. *)
  Theorem knn64_neighbors c q k : let n := length (kx64 c) in
    (neighbors64 c q k = Panic <-> (2 <= n)%nat /\ exists i, (i < n)%nat /\ dist_to c q i = nan) /\
    neighbors64 c q k <> NoFuel /\
    forall l, neighbors64 c q k = Ret l -> length l = Nat.min k n /\ NoDup (map fst l) /\ StronglySorted before64 l /\
      (forall i d, In (i, d) l -> (i < n)%nat /\ d = dist_to c q i) /\
      (forall i j, In i (map fst l) -> (j < n)%nat -> ~ In j (map fst l) -> before64 (i, dist_to c q i) (j, dist_to c q j)).
  Proof.
    intros n. unfold F64KnnModel.neighbors64. destruct (sort_cases c q) as [(E & L & X)|(s & E & P & S & N)]; rewrite E; cbn [bind].
    - split; [split; [intros _; split; assumption|reflexivity]|]. split; [discriminate|discriminate].
    - split; [split; [discriminate|]|split; [discriminate|]].
      { intros [L (i & I & V)]. specialize (N L i I). rewrite V in N. discriminate N. }
      intros l H. injection H as <-.
      assert (Sp : s = firstn k s ++ skipn k s) by (symmetry; apply firstn_skipn).
      assert (D : forall i d, In (i, d) s -> (i < n)%nat /\ d = dist_to c q i).
      { intros i d H. apply (Permutation_in _ (Permutation_sym P)) in H. apply in_map_iff in H. destruct H as (j & H & Hj). apply in_seq in Hj. injection H as <- <-. split; [unfold n; lia|reflexivity]. }
      assert (ND : NoDup (map fst s)) by (eapply Permutation_NoDup; [apply Permutation_map, P|]; unfold F64KnnModel.distances64; rewrite map_map; cbn; rewrite map_id; apply seq_NoDup).
      assert (PRE : forall (A : Type) (R : A -> A -> Prop) (a b : list A), StronglySorted R (a ++ b) -> StronglySorted R a).
      { intros A R a b. induction a as [|h t IH]; intros W; [constructor|]. cbn in W. apply StronglySorted_inv in W as [W1 W2]. constructor; [apply IH, W1|]. rewrite Forall_forall in *. intros z Z. apply W2, in_or_app. left. exact Z. }
      split; [|split; [|split; [|split]]].
      + rewrite firstn_length, <- (Permutation_length P), distances_len. reflexivity.
      + rewrite Sp, map_app in ND. clear - ND. induction (map fst (firstn k s)) as [|a t IH]; [constructor|]. cbn in ND. apply NoDup_cons_iff in ND. destruct ND as [N1 N2]. constructor; [intros H; apply N1, in_or_app; left; exact H|apply IH, N2].
      + rewrite Sp in S. exact (PRE _ _ _ _ S).
      + intros i d H. apply D. rewrite Sp. apply in_or_app. left. exact H.
      + intros i j Ii Hj Ij. apply in_map_iff in Ii. destruct Ii as ((i', di) & Q & Hin). cbn in Q. subst i'.
        assert (Hd : di = dist_to c q i) by (apply D; rewrite Sp; apply in_or_app; left; exact Hin). subst di. apply (sorted_rel before64 _ _ (eq_ind _ _ S _ Sp)); [exact Hin|].
        assert (Hs : In (j, dist_to c q j) s). { apply (Permutation_in _ P). unfold F64KnnModel.distances64. apply in_map_iff. exists j. split; [reflexivity|]. apply in_seq. unfold n in Hj. lia. }
        rewrite Sp in Hs. apply in_app_or in Hs. destruct Hs as [Hs|Hs]; [|exact Hs]. exfalso. apply Ij. apply in_map_iff. eexists; split; [|exact Hs]. reflexivity.
  Qed.
End Neighbours.
Print Assumptions knn64_neighbors.

(** ** How accurate a distance is *)
Definition near (k : nat) (E x X : R) : Prop := 0 <= x /\ 0 <= X /\ X <= x * bb ^ k + E /\ x <= X * bb ^ k + E.
Lemma near_sum k E e x y X Y : fmt x -> fmt y -> 0 <= E -> 0 <= e -> near k E x X -> near k e y Y -> near (S k) (bb * (E + e)) (rnd (x + y)) (X + Y).
Proof.
  intros FX FY E0 e0 (A1 & A2 & A3 & A4) (B1 & B2 & B3 & B4). pose proof (rnd_sum_err x y FX FY) as R. rewrite (Rabs_pos_eq (x + y)) in R by lra. apply Rabs_le_inv in R. pose proof u_pos as U. pose proof u_tiny as U1. pose proof (bb_pow k) as Q. pose proof bb_1 as B.
  set (z := rnd (x + y)) in *. set (q := bb ^ k) in *. assert (Z1 : x + y <= bb * z) by (unfold bb; nra). assert (Z2 : z <= bb * (x + y)) by (unfold bb in *; nra). assert (Z0 : 0 <= z) by nra.
  unfold near. cbn [pow]. fold q. split; [exact Z0|]. split; [lra|]. split.
  - assert ((x + y) * q <= bb * z * q) by (apply Rmult_le_compat_r; lra). assert (E + e <= bb * (E + e)) by nra. nra.
  - eapply Rle_trans; [exact Z2|]. replace ((X + Y) * (bb * q) + bb * (E + e)) with (bb * ((X * q + E) + (Y * q + e))) by ring. apply Rmult_le_compat_l; lra.
Qed.
Lemma bb_3 : bb ^ 3 <= 2. Proof. unfold bb. pose proof u_pos. pose proof u_tiny. cbn. nra. Qed.
Lemma term_near a b : fin (sq64 (fsub a b)) -> near 3 (2 * eta) (val (sq64 (fsub a b))) ((val a - val b) ^ 2).
Proof.
  unfold sq64. intros H. destruct (fmul_fin _ _ H) as (FD & _ & VT & _). destruct (fsub_fin _ _ FD) as (FA & FB & VD & _). rewrite VT, VD. set (g := val a - val b).
  assert (RD : Rabs (rnd g - g) <= u * Rabs g). { unfold g. unfold Rminus at 2 3 4. apply rnd_sum_err; [apply val_fmt|apply fmt_opp, val_fmt]. }
  set (d := rnd g) in *. pose proof (rnd_abs_err (d * d)) as RT. rewrite (Rabs_pos_eq (d * d)) in RT by nra. apply Rabs_le_inv in RT. set (t := rnd (d * d)) in *. pose proof u_pos as U. pose proof u_tiny as U1. pose proof eta_pos as N.
  assert (T0 : 0 <= t) by (unfold t; apply (rnd_ge 0); [apply generic_format_0|nra]).
  assert (D1 : Rabs d <= (1 + u) * Rabs g) by (replace d with (g + (d - g)) by ring; eapply Rle_trans; [apply Rabs_triang|]; lra).
  assert (D2 : (1 - u) * Rabs g <= Rabs d) by (assert (Rabs g <= Rabs d + Rabs (d - g)) by (replace g with (d + - (d - g)) at 1 by ring; eapply Rle_trans; [apply Rabs_triang|]; rewrite Rabs_Ropp; lra); lra).
  assert (DD : d * d = Rabs d * Rabs d) by (rewrite <- Rabs_mult, Rabs_pos_eq by nra; reflexivity). assert (GG : g ^ 2 = Rabs g * Rabs g) by (rewrite <- Rabs_mult, Rabs_pos_eq by nra; ring). rewrite GG. pose proof (Rabs_pos g) as G0. pose proof (Rabs_pos d) as D0. set (x := Rabs g) in *. set (y := Rabs d) in *. rewrite DD in RT.
  assert (Y1 : y * y <= (1 + u) * (1 + u) * (x * x)) by (replace ((1 + u) * (1 + u) * (x * x)) with (((1 + u) * x) * ((1 + u) * x)) by ring; apply Rmult_le_compat; lra).
  assert (Y2 : (1 - u) * (1 - u) * (x * x) <= y * y) by (replace ((1 - u) * (1 - u) * (x * x)) with (((1 - u) * x) * ((1 - u) * x)) by ring; apply Rmult_le_compat; nra).
  pose proof bb_3 as B3. assert (XX : 0 <= x * x) by nra. assert (YY : 0 <= y * y) by nra. set (X2 := x * x) in *. set (Y := y * y) in *. clearbody X2 Y t. clear - U U1 N T0 Y1 Y2 B3 XX YY RT. unfold near. split; [exact T0|]. split; [exact XX|]. assert (UB : 1 + u <= bb) by (unfold bb; lra).
  assert (K : 1 <= (1 - u) * bb) by (unfold bb; nra). split.
  - assert (S1 : X2 <= bb * bb * Y). { assert (0 < bb) by (unfold bb; lra). assert (bb * bb * ((1 - u) * (1 - u) * X2) <= bb * bb * Y) by (apply Rmult_le_compat_l; nra). replace (bb * bb * ((1 - u) * (1 - u) * X2)) with (((1 - u) * bb) * ((1 - u) * bb) * X2) in H0 by ring. assert (1 <= ((1 - u) * bb) * ((1 - u) * bb)) by nra. nra. }
    assert (S2 : Y <= bb * (t + eta)). { assert ((1 - u) * Y <= t + eta) by lra. assert (bb * ((1 - u) * Y) <= bb * (t + eta)) by (apply Rmult_le_compat_l; unfold bb; lra). nra. }
    assert (bb * bb * Y <= bb * bb * (bb * (t + eta))) by (apply Rmult_le_compat_l; [apply Rmult_le_pos; unfold bb; lra|exact S2]). replace (bb * bb * (bb * (t + eta))) with (t * bb ^ 3 + bb ^ 3 * eta) in H by ring. assert (bb ^ 3 * eta <= 2 * eta) by (apply Rmult_le_compat_r; lra). lra.
  - assert (P : (1 + u) * Y <= bb ^ 3 * X2). { assert ((1 + u) * Y <= (1 + u) * ((1 + u) * (1 + u) * X2)) by (apply Rmult_le_compat_l; lra). assert ((1 + u) ^ 3 <= bb ^ 3) by (apply pow_incr; lra). assert ((1 + u) ^ 3 * X2 <= bb ^ 3 * X2) by (apply Rmult_le_compat_r; lra). replace ((1 + u) * ((1 + u) * (1 + u) * X2)) with ((1 + u) ^ 3 * X2) in H by ring. lra. }
    lra.
Qed.
Lemma near_weak k j E x X : (k <= j)%nat -> near k E x X -> near j E x X.
Proof. intros L (A & B & C & D). pose proof (bb_mono k j L). split; [exact A|]. split; [exact B|]. split; nra. Qed.
Section Folds.
  Context {A : Type} (t : A -> f64) (T : A -> R) (TN : forall x, fin (t x) -> near 3 (2 * eta) (val (t x)) (T x)).
  Definition terms (l : list A) : R := fold_right Rplus 0 (map T l).
  Lemma fold_near l : forall a, fin (fold_left (fun acc x => fadd acc (t x)) l a) -> fin a /\
    forall k E W, (3 <= k)%nat -> 0 <= E -> near k E (val a) W ->
      near (k + length l) (bb ^ length l * (E + INR (length l) * (2 * eta))) (val (fold_left (fun acc x => fadd acc (t x)) l a)) (W + terms l).
  Proof.
    pose proof eta_pos as N. pose proof bb_1 as B. induction l as [|x l IH]; intros a H.
    - split; [exact H|]. intros k E W K E0 WN. cbn. rewrite Nat.add_0_r. unfold terms. cbn. replace (W + 0) with W by ring. replace (1 * (E + 0 * (2 * eta))) with E by ring. exact WN.
    - cbn [fold_left] in *. destruct (IH _ H) as [F1 I]. destruct (fadd_fin _ _ F1) as (FA & FT & VS & _). split; [exact FA|]. intros k E W K E0 WN.
      pose proof (near_weak 3 k _ _ _ K (TN x FT)) as TX. pose proof (near_sum k E (2 * eta) _ _ _ _ (val_fmt a) (val_fmt (t x)) E0 ltac:(lra) WN TX) as S1. rewrite <- VS in S1.
      assert (P0 : 0 <= bb * (E + 2 * eta)) by nra. specialize (I (S k) _ _ ltac:(lia) P0 S1). unfold terms. cbn [map fold_right length]. fold (terms l). rewrite <- Rplus_assoc, <- plus_n_Sm. cbn [Nat.add] in I. rewrite S_INR. cbn [pow].
      pose proof (bb_pow (length l)) as Q. pose proof (pos_INR (length l)) as LN. destruct I as (I1 & I2 & I3 & I4). set (q := bb ^ length l) in *. set (nn := INR (length l)) in *.
      assert (Z : q * (bb * (E + 2 * eta) + nn * (2 * eta)) <= bb * q * (E + (nn + 1) * (2 * eta))). { replace (bb * q * (E + (nn + 1) * (2 * eta))) with (q * (bb * (E + 2 * eta) + bb * (nn * (2 * eta)))) by ring. apply Rmult_le_compat_l; [lra|]. assert (0 <= nn * (2 * eta)) by nra. nra. }
      unfold near. split; [exact I1|]. split; [exact I2|]. split; lra.
  Qed.
End Folds.
Lemma sqrt_sum x y : 0 <= x -> 0 <= y -> sqrt (x + y) <= sqrt x + sqrt y.
Proof.
  intros X Y. apply Rsqr_incr_0_var; [|pose proof (sqrt_pos x); pose proof (sqrt_pos y); lra]. rewrite Rsqr_sqrt by lra. unfold Rsqr. pose proof (sqrt_sqrt x X). pose proof (sqrt_sqrt y Y). pose proof (sqrt_pos x). pose proof (sqrt_pos y). nra.
Qed.
Lemma near_root k E x X q : 1 <= q -> 0 <= E -> 0 <= X -> 0 <= x -> x <= X * q + E -> q = bb ^ k -> sqrt x <= sqrt X * q + sqrt E.
Proof.
  intros Q E0 X0 _ H _. apply Rle_trans with (sqrt (X * q + E)); [apply sqrt_le_1_alt, H|]. eapply Rle_trans; [apply sqrt_sum; nra|]. apply Rplus_le_compat_r. rewrite sqrt_mult by lra. apply Rmult_le_compat_l; [apply sqrt_pos|].
  rewrite <- (sqrt_square q) at 2 by lra. apply sqrt_le_1_alt. nra.
Qed.

Definition slack (n : nat) : R := 1 + 3 * (INR n + 4) * u.
(** the root of a computed sum of squares *)
Lemma norm_near {A} (t : A -> f64) (T : A -> R) (TN : forall x, fin (t x) -> near 3 (2 * eta) (val (t x)) (T x)) neg l n : (length l <= n)%nat -> (Z.of_nat n <= 2 ^ 40)%Z ->
  let d := fsqrt (fold_left (fun acc x => fadd acc (t x)) l (B754_zero neg)) in fin d ->
  0 <= val d /\ sqrt (terms T l) <= slack n * val d + bpow radix2 (-500) /\ val d <= slack n * sqrt (terms T l) + bpow radix2 (-500).
Proof.
  intros LE SM d FD. set (s := fold_left (fun acc x => fadd acc (t x)) l (B754_zero neg)) in *.
  assert (FS : fin s). { unfold d in FD. destruct s as [?|b| |? ? ? ?]; try reflexivity; [destruct b; discriminate FD|discriminate FD]. }
  destruct (fold_near t T TN l (B754_zero neg) FS) as [_ I]. fold s in I. pose proof eta_pos as N. specialize (I 3%nat 0 0 ltac:(lia) ltac:(lra)). rewrite Rplus_0_l in I. change (val (B754_zero neg)) with 0 in I. assert (Z0 : near 3 0 0 0) by (unfold near; lra). specialize (I Z0). rewrite Rplus_0_l in I. clear Z0.
  set (m := length l) in *. pose proof (bb_pow (3 + m)) as Q. pose proof (bb_pow m) as Qm. pose proof (pos_INR m) as M0. set (E := bb ^ m * (INR m * (2 * eta))) in *. assert (E0 : 0 <= E) by (unfold E; apply Rmult_le_pos; [lra|]; apply Rmult_le_pos; lra).
  destruct I as (S0 & T0 & I1 & I2). pose proof (near_root (3 + m) E _ _ _ Q E0 S0 T0 I1 eq_refl) as J1. pose proof (near_root (3 + m) E _ _ _ Q E0 T0 S0 I2 eq_refl) as J2. set (D := sqrt (terms T l)) in *. set (w := sqrt E) in *. set (q := bb ^ (3 + m)) in *.
  pose proof (sqrt_pos (terms T l)) as D0. fold D in D0. pose proof (sqrt_pos E) as W0. fold w in W0. pose proof bb_1 as B1.
  assert (R : 0 <= val d /\ sqrt (val s) <= val d * bb /\ val d <= sqrt (val s) * bb).
  { destruct S0 as [S0|S0].
    - destruct (fsqrt_R s FS S0) as [_ V]. fold d in V. assert (L : bpow radix2 (-1000) <= sqrt (val s)).
      { rewrite <- (sqrt_square (bpow radix2 (-1000))) by apply bpow_ge_0. rewrite <- bpow_plus. destruct (Rle_lt_dec (bpow radix2 (-1074)) (val s)) as [K|K].
        - apply sqrt_le_1_alt. eapply Rle_trans; [|exact K]. apply bpow_le. cbn. lia.
        - exfalso. pose proof (generic_format_ge_bpow radix2 (FLT_exp (-1074) 53) (-1074)) as G. specialize (G ltac:(intros e; unfold FLT_exp; lia) (val s) S0 (val_fmt s)). lra. }
      assert (P : 0 < sqrt (val s)) by (pose proof (bpow_gt_0 radix2 (-1000)); lra). destruct (within_rnd 0 (sqrt (val s)) (sqrt (val s)) L (within_refl _ P)) as (_ & W1 & W2). rewrite <- V in W1, W2. cbn [pow] in W1, W2. rewrite Rmult_1_r in W1, W2. split; [nra|]. split; [exact W1|exact W2].
    - assert (V : val d = 0). { unfold d. destruct (Bsqrt_correct 53 1024 p53 pe53 mode_NE s) as (V & _). unfold val, fsqrt. rewrite V. change (B2R s) with (val s). rewrite <- S0, sqrt_0. apply rnd_0. }
      rewrite V, <- S0, sqrt_0. lra. }
  destruct R as (V0 & R1 & R2). split; [exact V0|].
  assert (MN : INR m <= INR n) by (apply le_INR; exact LE). assert (NB : INR n <= 1099511627776) by (rewrite INR_IZR_INZ; apply (IZR_le _ (2 ^ 40) SM)). pose proof u_pos as U.
  assert (UV : 4 * (1099511627776 + 4) * u <= / 100). { unfold u. change (IZR (2 ^ 53)) with 9007199254740992. lra. }
  assert (SL : bb * q <= slack n). { unfold q. change (bb * bb ^ (3 + m)) with (bb ^ (4 + m)). eapply Rle_trans; [apply bb_lin|]; rewrite plus_INR; cbn [INR]; unfold slack; nra. }
  assert (WB : bb * w <= bpow radix2 (-500)).
  { assert (B2 : bb <= 2) by (unfold bb; pose proof u_tiny; lra). assert (QM : bb ^ m <= 2) by (eapply Rle_trans; [apply bb_lin|]; nra).
    assert (EB : E <= bpow radix2 (-1010)). { apply Rle_trans with (2 * (1099511627776 * (2 * eta))). { unfold E. apply Rmult_le_compat; [lra|apply Rmult_le_pos; lra|exact QM|]. apply Rmult_le_compat_r; lra. }
      unfold eta. change 1099511627776 with (bpow radix2 40). replace (2 * (bpow radix2 40 * (2 * (/ 2 * bpow radix2 (-1074))))) with (2 * (bpow radix2 40 * bpow radix2 (-1074))) by field. rewrite <- bpow_plus. change 2 with (bpow radix2 1). rewrite <- bpow_plus. apply bpow_le. cbn. lia. }
    assert (WE : w <= bpow radix2 (-505)). { unfold w. rewrite <- (sqrt_square (bpow radix2 (-505))) by apply bpow_ge_0. rewrite <- bpow_plus. apply sqrt_le_1_alt. exact EB. }
    apply Rle_trans with (2 * bpow radix2 (-505)); [apply Rmult_le_compat; lra|]. change 2 with (bpow radix2 1). rewrite <- bpow_plus. apply bpow_le. cbn. lia. }
  set (r := sqrt (val s)) in *. assert (w <= bb * w) by nra. split.
  - assert (r * q <= val d * bb * q) by (apply Rmult_le_compat_r; lra). assert (val d * (bb * q) <= val d * slack n) by (apply Rmult_le_compat_l; lra). lra.
  - assert (r * bb <= (D * q + w) * bb) by (apply Rmult_le_compat_r; lra). assert (D * (bb * q) <= D * slack n) by (apply Rmult_le_compat_l; lra). lra.
Qed.

(** The Euclidean distance of two points is computed with a relative error of about three units of 2^-53
    per coordinate, and an absolute error below 2^-500 from underflow. *)
Definition sq_gap (ab : f64 * f64) : R := (val (fst ab) - val (snd ab)) ^ 2.
Definition true_distance (a b : list f64) : R := sqrt (fold_right Rplus 0 (map sq_gap (combine a b))).
Theorem knn64_distance a b n : (length (combine a b) <= n)%nat -> (Z.of_nat n <= 2 ^ 40)%Z -> let d := fsqrt (sq_dist64 a b) in fin d ->
  0 <= val d /\ true_distance a b <= slack n * val d + bpow radix2 (-500) /\ val d <= slack n * true_distance a b + bpow radix2 (-500).
Proof. intros LE SM d FD. apply (norm_near (fun ab => sq64 (fsub (fst ab) (snd ab))) sq_gap (fun ab => term_near (fst ab) (snd ab)) false (combine a b) n LE SM FD). Qed.
Print Assumptions knn64_distance.

(** A sample that was chosen is, in truth, hardly further away than any sample that was not. *)
Lemma nn_dist a b : nn (fsqrt (sq_dist64 a b)).
Proof.
  apply nn_sqrt. unfold sq_dist64. generalize (combine a b). assert (Z : nn zero) by (right; reflexivity). revert Z. generalize zero. intros z Z l. revert z Z. induction l as [|x l IH]; intros z Z; cbn; [exact Z|]. apply IH, nn_add; [exact Z|apply nn_sq].
Qed.
Theorem knn64_nearest powi64 powf64 x y q k l i j : let c := Knn64 x y Euclidean64 in neighbors64 powi64 powf64 c q k = Ret l ->
  In i (map fst l) -> (j < length x)%nat -> ~ In j (map fst l) -> fin (dist_to powi64 powf64 c q j) -> (Z.of_nat (length q) <= 2 ^ 40)%Z ->
  true_distance (nth i x []) q <= slack (length q) ^ 2 * true_distance (nth j x []) q + 3 * bpow radix2 (-500).
Proof.
  intros c H Ii Hj Ij Fj SM. destruct (knn64_neighbors powi64 powf64 c q k) as (PN & _ & SP). destruct (SP l H) as (_ & _ & _ & EL & B). specialize (B i j Ii Hj Ij).
  assert (Hi : (i < length x)%nat). { apply in_map_iff in Ii as ([i' d] & E & I). cbn in E. subst i'. apply (EL i d I). }
  assert (NE : i <> j) by (intros ->; contradiction). cbn [kx64 c] in *.
  assert (Ni : num (dist_to powi64 powf64 c q i)). { destruct (num_dec (dist_to powi64 powf64 c q i)) as [N|N]; [exact N|exfalso]. assert (X : neighbors64 powi64 powf64 c q k = Panic). { apply PN. split; [lia|]. exists i. split; [exact Hi|]. destruct (dist_to powi64 powf64 c q i); try (exfalso; apply N; reflexivity). reflexivity. } congruence. }
  assert (Pi : pos64 (dist_to powi64 powf64 c q i)) by (apply nn_pos; [apply nn_dist|exact Ni]). assert (LE : ext (dist_to powi64 powf64 c q i) <= ext (dist_to powi64 powf64 c q j)) by (destruct B as [B|[B _]]; cbn [snd] in B; lra).
  assert (Fi : fin (dist_to powi64 powf64 c q i)). { rewrite (ext_fin _ Fj) in LE. pose proof (val_lt (dist_to powi64 powf64 c q j)) as V. apply Rabs_def2 in V. destruct (dist_to powi64 powf64 c q i) as [?|s| |? ? ? ?]; try reflexivity; [|discriminate Ni]. destruct s; [discriminate Pi|exfalso; change (ext (B754_infinity false)) with fmaxR in LE; lra]. }
  rewrite !ext_fin in LE by assumption. unfold dist_to, distance64 in *. cbn [km64 kx64 c] in *.
  assert (CL : forall a : list f64, (length (combine a q) <= length q)%nat) by (intros a; rewrite combine_length; lia).
  destruct (knn64_distance (nth i x []) q (length q) (CL _) SM Fi) as (V1 & A1 & _). destruct (knn64_distance (nth j x []) q (length q) (CL _) SM Fj) as (V2 & _ & A2).
  assert (G : 1 <= slack (length q) <= 2). { unfold slack. pose proof u_pos as U. pose proof (pos_INR (length q)) as L0. assert (NB : INR (length q) <= 1099511627776) by (rewrite INR_IZR_INZ; apply (IZR_le _ (2 ^ 40) SM)). assert (UV : 4 * (1099511627776 + 4) * u <= / 100) by (unfold u; change (IZR (2 ^ 53)) with 9007199254740992; lra). assert (M1 : (INR (length q) + 4) * u <= (1099511627776 + 4) * u) by (apply Rmult_le_compat_r; lra). assert (M2 : 0 <= (INR (length q) + 4) * u) by (apply Rmult_le_pos; lra). lra. }
  set (g := slack (length q)) in *. pose proof (bpow_gt_0 radix2 (-500)) as W. set (w := bpow radix2 (-500)) in *. set (di := val (fsqrt (sq_dist64 (nth i x []) q))) in *. set (dj := val (fsqrt (sq_dist64 (nth j x []) q))) in *.
  assert (g * di <= g * dj) by (apply Rmult_le_compat_l; lra). assert (g * dj <= g * (g * true_distance (nth j x []) q + w)) by (apply Rmult_le_compat_l; lra). assert (g * w <= 2 * w) by (apply Rmult_le_compat_r; lra). cbn [pow]. lra.
Qed.
Print Assumptions knn64_nearest.

(** Strictly nearest it need not be: next to the query 1, the samples 0 and 2^-60 look equally far. *)
Theorem knn64_nearest_refuted : exists x q, forall y powi64 powf64, exists l, neighbors64 powi64 powf64 (Knn64 x y Euclidean64) q 1 = Ret l /\ map fst l = [0%nat] /\
  true_distance (nth 1 x []) q < true_distance (nth 0 x []) q.
Proof.
  exists [[zero]; [lit 1 (-60)]], [one]. intros y pi pf.
  assert (H : match neighbors64 pi pf (Knn64 [[zero]; [lit 1 (-60)]] y Euclidean64) [one] 1 with Ret l => map fst l | _ => [] end = [0%nat]) by (vm_compute; reflexivity).
  destruct (neighbors64 pi pf (Knn64 [[zero]; [lit 1 (-60)]] y Euclidean64) [one] 1) as [l| |]; [|discriminate H|discriminate H]. exists l. split; [reflexivity|]. split; [exact H|]. unfold true_distance, sq_gap. cbn [nth combine map fold_right fst snd].
  destruct one_R as [_ V1]. rewrite V1. change (val zero) with 0. destruct (entry_R 1 (-60) ltac:(lia) ltac:(lia)) as [_ V]. change (F64QuadModel.entry (1, -60)%Z) with (lit 1 (-60)) in V. rewrite V. pose proof (bpow_gt_0 radix2 (-60)) as P. pose proof (bpow_le radix2 (-60) (-1) ltac:(lia)) as L. change (bpow radix2 (-1)) with (/ 2) in L.
  apply sqrt_lt_1_alt. split; [pose proof (pow2_ge_0 (1 * bpow radix2 (-60) - 1)); lra|]. nra.
Qed.
Print Assumptions knn64_nearest_refuted.

(** ** The vote *)
Definition votes64 (z : Z) (l : list f64) : nat := length (filter (fun v => Z.eqb z (class64 v)) l).
Lemma votes64_app z a b : votes64 z (a ++ b) = (votes64 z a + votes64 z b)%nat.
Proof. unfold votes64. rewrite filter_app, app_length. reflexivity. Qed.
Lemma votes64_one z v : votes64 z [v] = if Z.eqb z (class64 v) then 1%nat else 0%nat.
Proof. unfold votes64. cbn [filter]. destruct (Z.eqb z (class64 v)); reflexivity. Qed.
Definition winner64 (l : list f64) (v : f64) : Prop :=
  (forall z, (votes64 z l <= votes64 (class64 v) l)%nat) /\
  exists l1 l2, l = l1 ++ v :: l2 /\ forall w, In w l2 -> (votes64 (class64 w) l < votes64 (class64 v) l)%nat.
Lemma vote64_inv : forall r pre c best, (forall z, c z = votes64 z pre) ->
  (match best with Some (b, m) => winner64 pre b /\ m = votes64 (class64 b) pre | None => pre = [] end) ->
  match vote64 r c best with Some v => winner64 (pre ++ r) v | None => pre ++ r = [] end.
Proof.
  induction r as [|v r IH]; intros pre c best Hc Hb; cbn [vote64].
  - rewrite app_nil_r. destruct best as [[b m]|]; cbn; [apply Hb|exact Hb].
  - replace (pre ++ v :: r) with ((pre ++ [v]) ++ r) by (rewrite <- app_assoc; reflexivity). apply IH.
    + intros z. unfold bump64. rewrite votes64_app, votes64_one, Hc. destruct (Z.eqb z (class64 v)); lia.
    + unfold bump64. rewrite Z.eqb_refl, Hc.
      assert (New : (forall z, (votes64 z pre <= S (votes64 (class64 v) pre))%nat) -> winner64 (pre ++ [v]) v /\ S (votes64 (class64 v) pre) = votes64 (class64 v) (pre ++ [v])).
      { intros H. assert (E : votes64 (class64 v) (pre ++ [v]) = S (votes64 (class64 v) pre)) by (rewrite votes64_app, votes64_one, Z.eqb_refl; lia).
        split; [|lia]. split.
        - intros z. rewrite E, votes64_app, votes64_one. destruct (Z.eqb_spec z (class64 v)) as [->|]; [lia|]. specialize (H z). lia.
        - exists pre, []. split; [reflexivity|]. intros w []. }
      destruct best as [[b m]|].
      * destruct Hb as [[Hmax (l1 & l2 & El & Hl)] ->]. destruct (Nat.ltb_spec (S (votes64 (class64 v) pre)) (votes64 (class64 b) pre)) as [L|L].
        -- assert (Nb : class64 b <> class64 v) by (intros E; rewrite E in L; lia).
           assert (Eb : votes64 (class64 b) (pre ++ [v]) = votes64 (class64 b) pre) by (rewrite votes64_app, votes64_one; destruct (Z.eqb_spec (class64 b) (class64 v)); [congruence|lia]).
           split; [|lia]. split.
           ++ intros z. rewrite Eb, votes64_app, votes64_one. destruct (Z.eqb_spec z (class64 v)) as [->|]; [lia|]. specialize (Hmax z). lia.
           ++ exists l1, (l2 ++ [v]). split; [rewrite El, <- app_assoc; reflexivity|]. intros w Hw. rewrite Eb, votes64_app, votes64_one.
              apply in_app_or in Hw. destruct Hw as [Hw|[<-|[]]].
              ** specialize (Hl w Hw). destruct (Z.eqb_spec (class64 w) (class64 v)) as [E|]; [rewrite E in *|]; lia.
              ** rewrite Z.eqb_refl. lia.
        -- apply New. intros z. specialize (Hmax z). lia.
      * subst pre. apply New. intros z. unfold votes64. cbn. lia.
Qed.
Lemma vote64_spec l : match vote64 l (fun _ => 0%nat) None with Some v => winner64 l v | None => l = [] end.
Proof. apply (vote64_inv l []); [intros; reflexivity|reflexivity]. Qed.
Lemma labels64_ok y l : (forall e, In e l -> (fst e < length y)%nat) -> labels64 y l = Ret (map (fun e => nth (fst e) y zero) l).
Proof.
  induction l as [|e l IH]; intros H; [reflexivity|]. cbn [labels64 map]. rewrite (nth_error_nth' y zero) by (apply H; left; reflexivity). cbn [unwrap bind]. rewrite IH by (intros a A; apply H; right; exact A). reflexivity.
Qed.

(** Prediction: a majority vote of the neighbours, ties to the class whose last vote comes from the furthest
    neighbour.  It panics exactly when no neighbour is asked for, there is no sample, or two samples or more
    are compared with a distance that is a NaN. *)
Theorem knn64_predict powi64 powf64 x y m c q k : knn_new64 x y m = Ret c ->
  (predict_one64 powi64 powf64 c q k = Panic <-> k = 0%nat \/ x = [] \/ ((2 <= length x)%nat /\ exists i, (i < length x)%nat /\ dist_to powi64 powf64 c q i = nan)) /\
  (forall v, predict_one64 powi64 powf64 c q k = Ret v -> exists l, neighbors64 powi64 powf64 c q k = Ret l /\ winner64 (map (fun e => nth (fst e) y zero) l) v).
Proof.
  unfold knn_new64. destruct (Nat.eqb_spec (length x) (length y)) as [LE|]; [|discriminate]. intros H. injection H as <-. set (c := Knn64 x y m). destruct (knn64_neighbors powi64 powf64 c q k) as (PN & NF & SP). unfold predict_one64.
  destruct (neighbors64 powi64 powf64 c q k) as [l| |] eqn:E; [| |contradiction].
  - destruct (SP l eq_refl) as (LL & _ & _ & EL & _). cbn [bind]. rewrite labels64_ok by (intros [i d] I; cbn; rewrite <- LE; apply (EL i d I)). cbn [bind ky64 c]. pose proof (vote64_spec (map (fun e => nth (fst e) y zero) l)) as V. destruct (vote64 _ _ None) as [v|]; cbn [unwrap].
    + split.
      * split; [discriminate|]. intros K. exfalso. destruct V as [_ (l1 & l2 & Q & _)]. assert (LZ : (1 <= length l)%nat) by (rewrite <- (map_length (fun e => nth (fst e) y zero) l), Q, app_length; cbn; lia). cbn [kx64 c] in *.
        destruct K as [->|[->|K]]; [cbn in LL; lia|rewrite Nat.min_comm in LL; cbn in LL; lia|]. apply PN in K. discriminate K.
      * intros v' W. injection W as <-. exists l. split; [reflexivity|exact V].
    + split; [|discriminate]. split; [|reflexivity]. intros _. assert (LZ : length l = 0%nat) by (rewrite <- (map_length (fun e => nth (fst e) y zero) l), V; reflexivity). rewrite LZ in LL. cbn [kx64 c] in LL. destruct k; [left; reflexivity|right; left]. destruct x; [reflexivity|discriminate LL].
  - cbn [bind]. split; [|discriminate]. split; [|reflexivity]. intros _. right. right. apply PN. reflexivity.
Qed.
Print Assumptions knn64_predict.

(** On finite data it always answers, under every metric. *)
Theorem knn64_total powi64 powf64 x y m c qs k : sane_powers powi64 powf64 -> knn_new64 x y m = Ret c -> Forall (Forall fin) x -> Forall (Forall fin) qs -> x <> [] -> (0 < k)%nat ->
  exists vs, predict64 powi64 powf64 c qs k = Ret vs /\ Forall2 (fun q v => predict_one64 powi64 powf64 c q k = Ret v /\ In v y) qs vs.
Proof.
  intros SANE NEW FX FQ NE K. induction FQ as [|q qs Fq FQ IH]; cbn [predict64]; [exists []; split; [reflexivity|constructor]|]. destruct IH as (vs & E & A).
  destruct (knn64_predict powi64 powf64 x y m c q k NEW) as [PN SP].
  assert (CX : c = Knn64 x y m /\ length x = length y). { unfold knn_new64 in NEW. destruct (Nat.eqb_spec (length x) (length y)) as [L|]; [|discriminate NEW]. injection NEW as <-. split; [reflexivity|exact L]. } destruct CX as [CX LX].
  assert (OK : predict_one64 powi64 powf64 c q k <> Panic). { intros P. apply PN in P. destruct P as [P|[P|[_ (i & I & D)]]]; [lia|contradiction|]. assert (W : pos64 (dist_to powi64 powf64 c q i)). { unfold dist_to. apply distance_pos; [exact SANE| |exact Fq]. rewrite CX. cbn [kx64]. rewrite Forall_forall in FX. apply FX, nth_In, I. } rewrite D in W. discriminate W. }
  destruct (predict_one64 powi64 powf64 c q k) as [v| |] eqn:P; [|contradiction|].
  - cbn [bind]. rewrite E. cbn [bind]. exists (v :: vs). split; [reflexivity|]. constructor; [|exact A]. split; [exact P|]. destruct (SP v eq_refl) as (l & NL & _ & l1 & l2 & Q & _). assert (IV : In v (map (fun e => nth (fst e) y zero) l)) by (rewrite Q; apply in_or_app; right; left; reflexivity).
    apply in_map_iff in IV as (e & <- & IE). apply nth_In. destruct (knn64_neighbors powi64 powf64 c q k) as (_ & _ & SN). destruct (SN l NL) as (_ & _ & _ & EL & _). rewrite <- LX. destruct e as [i d]. specialize (EL i d IE). rewrite CX in EL. apply EL.
  - exfalso. unfold predict_one64 in P. destruct (knn64_neighbors powi64 powf64 c q k) as (_ & NF & SN). destruct (neighbors64 powi64 powf64 c q k) as [l| |] eqn:NL; [|discriminate P|contradiction]. cbn [bind] in P. destruct (SN l eq_refl) as (_ & _ & _ & EL & _).
    rewrite labels64_ok in P by (intros [i d] I; specialize (EL i d I); rewrite CX in *; cbn in *; lia). cbn [bind] in P. destruct (vote64 _ _ None); discriminate P.
Qed.
Print Assumptions knn64_total.

(** An infinite feature shared by a sample and the query makes the prediction panic. *)
Theorem knn64_infinity_refuted : exists x y q, forall powi64 powf64, exists c, knn_new64 x y Euclidean64 = Ret c /\ predict_one64 powi64 powf64 c q 1 = Panic.
Proof. exists [[pinf]; [one]], [zero; one], [pinf]. intros pi pf. eexists. split; [reflexivity|]. vm_compute. reflexivity. Qed.
Print Assumptions knn64_infinity_refuted.
(** A NaN label votes with the labels strictly between -1 and 1, and can win: *)
Theorem knn64_nan_label_refuted : exists x y q, forall powi64 powf64, exists c, knn_new64 x y Euclidean64 = Ret c /\ predict_one64 powi64 powf64 c q 5 = Ret nan.
Proof.
  exists [[zero]; [zero]; [zero]; [zero]; [zero]], [lit 5 0; lit 5 0; zero; lit 1 (-1); nan], [zero]. intros pi pf. eexists. split; [reflexivity|]. vm_compute. reflexivity.
Qed.
Print Assumptions knn64_nan_label_refuted.

(** ** Cases *)
Example sane_powers_case : sane_powers (fun x _ => x) (fun x _ => x).
Proof. split; auto. Qed.
Definition iris : list (list f64) := [[lit 1 0; lit 1 0]; [lit 2 0; lit 1 0]; [lit 9 0; lit 9 0]].
Example knn64_case : Forall (Forall fin) iris /\ match predict_one64 (fun x _ => x) (fun x _ => x) (Knn64 iris [one; one; two] Euclidean64) [lit 8 0; lit 9 0] 1 with Ret v => feq v two | _ => false end = true /\
  match neighbors64 (fun x _ => x) (fun x _ => x) (Knn64 iris [one; one; two] Manhattan64) [lit 8 0; lit 9 0] 2 with Ret l => map fst l | _ => [] end = [2%nat; 1%nat].
Proof. split; [repeat constructor|]. split; vm_compute; reflexivity. Qed.

(** ** Construction and classes *)
Theorem knn64_new x y m : (knn_new64 x y m = Panic <-> length x <> length y) /\ (length x = length y -> knn_new64 x y m = Ret (Knn64 x y m)).
Proof. unfold knn_new64. destruct (Nat.eqb_spec (length x) (length y)) as [E|E]; cbn; split; try split; try congruence; try reflexivity; contradiction. Qed.
Print Assumptions knn64_new.
(** The class of a label is its integer part towards zero, held within 64 signed bits; infinities are the
    two ends, and a NaN is class 0. *)
Theorem knn64_class x : (fin x -> class64 x = Z.max (- 2 ^ 63) (Z.min (2 ^ 63 - 1) (Ztrunc (val x)))) /\
  (fin x -> - 9223372036854775808 <= val x < 9223372036854775808 -> class64 x = Ztrunc (val x)) /\
  class64 pinf = (2 ^ 63 - 1)%Z /\ class64 ninf = (- 2 ^ 63)%Z /\ class64 nan = 0%Z.
Proof.
  assert (T : Btrunc x = Ztrunc (val x)).
  { apply eq_IZR. rewrite (Btrunc_correct 53 1024 pe53 x). unfold round, scaled_mantissa, F2R, cexp, FIX_exp. cbn [Fnum Fexp bpow Z.opp]. rewrite !Rmult_1_r. reflexivity. }
  assert (G : fin x -> class64 x = Z.max (- 2 ^ 63) (Z.min (2 ^ 63 - 1) (Ztrunc (val x)))) by (intros F; rewrite <- T; destruct x; try discriminate F; reflexivity).
  split; [exact G|]. split; [|split; [reflexivity|split; reflexivity]]. intros F [A B]. rewrite (G F).
  assert (L : (- 2 ^ 63 <= Ztrunc (val x))%Z). { rewrite <- (Ztrunc_IZR (- 2 ^ 63)). apply Ztrunc_le. exact A. }
  assert (U : (Ztrunc (val x) <= 2 ^ 63 - 1)%Z). { destruct (Rle_lt_dec 0 (val x)) as [P|P].
    - rewrite (Ztrunc_floor _ P). apply Zlt_succ_le. apply lt_IZR. eapply Rle_lt_trans; [apply Zfloor_lb|]. exact B.
    - apply Z.le_trans with 0%Z; [|lia]. rewrite <- (Ztrunc_IZR 0). apply Ztrunc_le. lra. }
  lia.
Qed.
Print Assumptions knn64_class.
Example knn64_class_case : class64 (lit (-7) (-1)) = (-3)%Z /\ class64 (lit 1 70) = (2 ^ 63 - 1)%Z /\ class64 (lit 5 (-1)) = 2%Z.
Proof. split; [|split]; vm_compute; reflexivity. Qed.
