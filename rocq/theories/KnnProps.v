(** C48: k-nearest-neighbours classification. *)
From Coq Require Import Reals List ZArith Lra Lia Permutation Sorted Bool.
From Verif Require Import Res InterpModel InterpProofs KnnModel.
Import ListNotations.
Open Scope R_scope.

(** ** Distances *)

Lemma power_sum_acc p l : forall a, fold_left (fun acc (ab : R * R) => acc + Rabs (fst ab - snd ab) ^ p) l a =
  a + fold_left (fun acc (ab : R * R) => acc + Rabs (fst ab - snd ab) ^ p) l 0.
Proof. induction l as [|e t IH]; intros a; simpl; [ring|]. rewrite IH, (IH (0 + _)). ring. Qed.
Lemma power_sum_cons p a b x y : power_sum p (a :: x) (b :: y) = Rabs (a - b) ^ p + power_sum p x y.
Proof. unfold power_sum. simpl. rewrite power_sum_acc. ring. Qed.
Lemma power_sum_nonneg p : forall x y, 0 <= power_sum p x y.
Proof.
  induction x as [|a x IH]; intros [|b y]; try (unfold power_sum; simpl; lra). rewrite power_sum_cons.
  pose proof (IH y). assert (0 <= Rabs (a - b) ^ p) by (apply pow_le, Rabs_pos). lra.
Qed.
Lemma power_sum_zero p : (1 <= p)%nat -> forall x y, length x = length y -> (power_sum p x y = 0 <-> x = y).
Proof.
  intros Hp. induction x as [|a x IH]; intros [|b y] Hl; try discriminate.
  - unfold power_sum. simpl. tauto.
  - rewrite power_sum_cons. injection Hl as Hl. pose proof (power_sum_nonneg p x y).
    assert (0 <= Rabs (a - b) ^ p) by (apply pow_le, Rabs_pos). split.
    + intros H1. assert (Rabs (a - b) ^ p = 0) by lra. assert (E : power_sum p x y = 0) by lra. apply IH in E; [|exact Hl]. subst y. f_equal.
      destruct (Req_dec (a - b) 0) as [E|E]; [lra|]. exfalso. apply Rabs_no_R0 in E. apply (pow_nonzero _ p) in E. lra.
    + intros E. injection E as -> ->. rewrite (proj2 (IH y Hl) eq_refl). unfold Rminus. rewrite Rplus_opp_r, Rabs_R0, pow_i by lia. ring.
Qed.
Lemma powf_pos a e : 0 < a -> powf a e = Rpower a e.
Proof. intros H. unfold powf. destruct (Reqb_spec a 0); [lra|reflexivity]. Qed.
Lemma powf_0 e : powf 0 e = 0.
Proof. unfold powf. destruct (Reqb_spec 0 0); [reflexivity|lra]. Qed.
Lemma powf_mono a b e : 0 < e -> 0 <= a -> 0 <= b -> (powf a e <= powf b e <-> a <= b).
Proof.
  intros He Ha Hb. destruct (Req_dec a 0) as [->|Ea], (Req_dec b 0) as [->|Eb]; rewrite ?powf_0.
  - lra.
  - rewrite powf_pos by lra. unfold Rpower. pose proof (exp_pos (e * ln b)). lra.
  - rewrite powf_pos by lra. unfold Rpower. pose proof (exp_pos (e * ln a)). lra.
  - rewrite !powf_pos by lra. unfold Rpower. split; intros H.
    + apply Rnot_lt_le. intros L. apply ln_increasing in L; [|lra]. assert (exp (e * ln b) < exp (e * ln a)) by (apply exp_increasing, Rmult_lt_compat_l; lra). lra.
    + destruct H as [H| ->]; [|lra]. left. apply exp_increasing, Rmult_lt_compat_l; [lra|]. apply ln_increasing; lra.
Qed.
Lemma powf_1 a : 0 <= a -> powf a 1 = a.
Proof. intros H. destruct (Req_dec a 0) as [->|E]; [apply powf_0|]. rewrite powf_pos by lra. apply Rpower_1. lra. Qed.

(** order of the metric: power of the norm *)
Definition order (m : metric) : nat := match m with Euclidean => 2 | Manhattan => 1 | Minkowski p => Pos.to_nat p end.

Lemma distance_root m a b : distance m a b = powf (power_sum (order m) a b) (1 / INR (order m)).
Proof.
  pose proof (power_sum_nonneg 2 a b). destruct m as [| |p]; simpl; unfold distance.
  - destruct H as [H|H].
    + rewrite powf_pos by exact H. replace (1 / (1 + 1)) with (/ 2) by lra. rewrite Rpower_sqrt by exact H. reflexivity.
    + rewrite <- H, powf_0, sqrt_0. reflexivity.
  - reflexivity.
  - rewrite INR_IZR_INZ, positive_nat_Z. reflexivity.
Qed.
Lemma order_pos m : (1 <= order m)%nat.
Proof. destruct m; simpl; lia. Qed.
Lemma order_inv_pos m : 0 < 1 / INR (order m).
Proof. pose proof (order_pos m). apply Rdiv_lt_0_compat; [lra|]. apply lt_0_INR. lia. Qed.

(** The distances are what they are called: the sum of absolute differences to the
    given power decides who is nearer; Manhattan and Euclidean are Minkowski of
    power 1 and 2; distances are symmetric, never negative, and zero only for
    equal points. *)
Theorem knn_distance_metric : forall m a b a' b',
  0 <= distance m a b /\ distance m a b = distance m b a /\
  (distance m a b <= distance m a' b' <-> power_sum (order m) a b <= power_sum (order m) a' b') /\
  (length a = length b -> (distance m a b = 0 <-> a = b)).
Proof.
  intros m a b a' b'. rewrite !distance_root.
  assert (SY : forall p x y, power_sum p x y = power_sum p y x).
  { intros p. induction x as [|u x IH]; intros [|v y]; try reflexivity. rewrite !power_sum_cons, Rabs_minus_sym, IH. reflexivity. }
  pose proof (order_inv_pos m) as O. pose proof (power_sum_nonneg (order m)) as N.
  split; [|split; [rewrite SY; reflexivity|split; [apply powf_mono; auto|]]].
  - rewrite <- (powf_0 (1 / INR (order m))). apply powf_mono; auto; lra.
  - intros Hl. rewrite <- (power_sum_zero (order m)) by (auto using order_pos). split; intros H.
    + apply Rle_antisym; [|apply N]. apply (powf_mono _ _ _ O); [apply N|lra|]. rewrite powf_0. lra.
    + rewrite H. apply powf_0.
Qed.
Print Assumptions knn_distance_metric.
Theorem knn_minkowski_special : forall a b,
  distance Euclidean a b = distance (Minkowski 2) a b /\ distance Manhattan a b = distance (Minkowski 1) a b /\
  distance Manhattan a b = power_sum 1 a b.
Proof.
  intros a b. split; [|split].
  - rewrite !distance_root. reflexivity.
  - rewrite !distance_root. reflexivity.
  - unfold distance. replace (1 / 1) with 1 by lra. apply powf_1, power_sum_nonneg.
Qed.
Print Assumptions knn_minkowski_special.

(** ** Neighbours *)

(** nearer, ties by position in the data *)
Definition before (a b : nat * R) : Prop := snd a < snd b \/ (snd a = snd b /\ (fst a < fst b)%nat).
Lemma before_trans a b c : before a b -> before b c -> before a c.
Proof. unfold before. intros [H|[H1 H2]] [G|[G1 G2]]; [left; lra|left; lra|left; lra|right; split; [lra|lia]]. Qed.

Lemma insert_perm e l : Permutation (e :: l) (insert e l).
Proof. induction l as [|h t IH]; simpl; [reflexivity|]. destruct (Rltb (snd h) (snd e)); [|reflexivity]. rewrite perm_swap. constructor. exact IH. Qed.
Lemma sort_perm l : Permutation l (sort_by_distance l).
Proof. induction l as [|e t IH]; simpl; [constructor|]. rewrite <- insert_perm. constructor. exact IH. Qed.
Lemma insert_sorted e l : StronglySorted before l -> (forall x, In x l -> (fst e < fst x)%nat) -> StronglySorted before (insert e l).
Proof.
  induction l as [|h t IH]; intros S H; simpl; [repeat constructor|].
  apply StronglySorted_inv in S. destruct S as [S F]. rewrite Forall_forall in F.
  destruct (Rltb_spec (snd h) (snd e)).
  - constructor; [apply IH; [exact S|intros; apply H; right; assumption]|]. apply Forall_forall. intros x Hx.
    apply (Permutation_in x (Permutation_sym (insert_perm e t))) in Hx. destruct Hx as [<-|Hx]; [left; assumption|apply F, Hx].
  - assert (B : before e h). { destruct (Req_dec (snd e) (snd h)) as [E|E]; [right; split; [exact E|apply H; left; reflexivity]|left; lra]. }
    constructor; [constructor; [exact S|apply Forall_forall; exact F]|]. constructor; [exact B|]. apply Forall_forall. intros x Hx.
    apply before_trans with h; [exact B|apply F, Hx].
Qed.
Lemma sort_sorted l : StronglySorted (fun a b : nat * R => (fst a < fst b)%nat) l -> StronglySorted before (sort_by_distance l).
Proof.
  induction l as [|e t IH]; intros S; simpl; [constructor|]. apply StronglySorted_inv in S. destruct S as [S F]. rewrite Forall_forall in F.
  apply insert_sorted; [apply IH, S|]. intros x Hx. apply F. apply (Permutation_in x (Permutation_sym (sort_perm t))), Hx.
Qed.
Lemma seq_map_sorted (f : nat -> nat * R) : (forall i, fst (f i) = i) -> forall n s, StronglySorted (fun a b : nat * R => (fst a < fst b)%nat) (map f (seq s n)).
Proof.
  intros Hf. induction n as [|n IH]; intros s; simpl; constructor; [apply IH|]. apply Forall_forall. intros x Hx. apply in_map_iff in Hx.
  destruct Hx as (i & <- & Hi). apply in_seq in Hi. rewrite !Hf. lia.
Qed.
Lemma sorted_app_rel {A} (P : A -> A -> Prop) l1 : forall l2, StronglySorted P (l1 ++ l2) -> forall a b, In a l1 -> In b l2 -> P a b.
Proof.
  induction l1 as [|h t IH]; intros l2 S a b Ha Hb; simpl in *; [contradiction|].
  apply StronglySorted_inv in S. destruct S as [S F]. rewrite Forall_forall in F. destruct Ha as [<-|Ha]; [apply F, in_or_app; right; exact Hb|].
  apply (IH l2 S); assumption.
Qed.
Lemma sorted_app_l {A} (P : A -> A -> Prop) l1 : forall l2, StronglySorted P (l1 ++ l2) -> StronglySorted P l1.
Proof.
  induction l1 as [|h t IH]; intros l2 S; simpl in *; constructor.
  - apply StronglySorted_inv in S. apply (IH l2), S.
  - apply StronglySorted_inv in S. destruct S as [_ F]. rewrite Forall_forall in *. intros x Hx. apply F, in_or_app. left. exact Hx.
Qed.

(** The neighbours are k samples (all of them when there are fewer), each listed
    once with its own distance to the query, in order of distance with ties by
    position, and every other sample is further away. *)
Theorem knn_neighbors : forall c q k, let n := length (m_rows (kx c)) in let l := find_neighbors c q k in
  length l = Nat.min k n /\ NoDup (map fst l) /\
  (forall i d, In (i, d) l -> (i < n)%nat /\ d = distance (kmetric c) (nth i (m_rows (kx c)) []) q) /\
  StronglySorted before l /\
  (forall i j, (i < n)%nat -> (j < n)%nat -> In i (map fst l) -> ~ In j (map fst l) ->
     before (i, distance (kmetric c) (nth i (m_rows (kx c)) []) q) (j, distance (kmetric c) (nth j (m_rows (kx c)) []) q)).
Proof.
  intros c q k n l. pose proof (sort_perm (distances c q)) as P.
  assert (S : StronglySorted before (sort_by_distance (distances c q))) by (apply sort_sorted; unfold distances; apply seq_map_sorted; reflexivity).
  set (s := sort_by_distance (distances c q)) in *.
  assert (Sp : s = l ++ skipn k s) by (unfold l, find_neighbors; fold s; symmetry; apply firstn_skipn).
  assert (D : forall i d, In (i, d) s -> (i < n)%nat /\ d = distance (kmetric c) (nth i (m_rows (kx c)) []) q).
  { intros i d H. apply (Permutation_in _ (Permutation_sym P)) in H. unfold distances in H. apply in_map_iff in H.
    destruct H as (j & E & Hj). apply in_seq in Hj. injection E as <- <-. split; [unfold n; lia|reflexivity]. }
  assert (ND : NoDup (map fst s)).
  { eapply Permutation_NoDup; [apply Permutation_map, P|]. unfold distances. rewrite map_map. simpl. rewrite map_id. apply seq_NoDup. }
  split; [|split; [|split; [|split]]].
  - unfold l, find_neighbors. fold s. rewrite firstn_length. rewrite <- (Permutation_length P). unfold distances. rewrite map_length, seq_length. reflexivity.
  - rewrite Sp, map_app in ND. clear - ND. induction (map fst l) as [|a t IH]; [constructor|]. simpl in ND. apply NoDup_cons_iff in ND. destruct ND as [N1 N2].
    constructor; [intros H; apply N1, in_or_app; left; exact H|apply IH, N2].
  - intros i d H. apply D. rewrite Sp. apply in_or_app. left. exact H.
  - rewrite Sp in S. exact (sorted_app_l _ _ _ S).
  - intros i j Hi Hj Ii Ij. apply in_map_iff in Ii. destruct Ii as ((i', di) & E & Hin). simpl in E. subst i'.
    assert (Hd : di = distance (kmetric c) (nth i (m_rows (kx c)) []) q) by (apply D; rewrite Sp; apply in_or_app; left; exact Hin). subst di.
    apply sorted_app_rel with (1 := eq_ind _ _ S _ Sp); [exact Hin|].
    assert (Hs : In (j, distance (kmetric c) (nth j (m_rows (kx c)) []) q) s).
    { apply (Permutation_in _ P). unfold distances. apply in_map_iff. exists j. split; [reflexivity|]. apply in_seq. unfold n in Hj. lia. }
    rewrite Sp in Hs. apply in_app_or in Hs. destruct Hs as [Hs|Hs]; [|exact Hs]. exfalso. apply Ij. apply in_map_iff. eexists; split; [|exact Hs]. reflexivity.
Qed.
Print Assumptions knn_neighbors.

(** ** The vote *)

(** how many of the labels fall in class [z] *)
Definition votes (z : Z) (l : list R) : nat := length (filter (fun v => Z.eqb z (as_i64 v)) l).
Lemma votes_app z a b : votes z (a ++ b) = (votes z a + votes z b)%nat.
Proof. unfold votes. rewrite filter_app, app_length. reflexivity. Qed.
Lemma votes_one z v : votes z [v] = if Z.eqb z (as_i64 v) then 1%nat else 0%nat.
Proof. unfold votes. simpl. destruct (Z.eqb z (as_i64 v)); reflexivity. Qed.

Definition winner (l : list R) (v : R) : Prop :=
  (forall z, (votes z l <= votes (as_i64 v) l)%nat) /\
  exists l1 l2, l = l1 ++ v :: l2 /\ forall w, In w l2 -> (votes (as_i64 w) l < votes (as_i64 v) l)%nat.

Lemma max_by_count_spec : forall r pre c best,
  (forall z, c z = votes z pre) ->
  (match best with Some (b, m) => winner pre b /\ m = votes (as_i64 b) pre | None => pre = [] end) ->
  match max_by_count r c best with Some v => winner (pre ++ r) v | None => pre ++ r = [] end.
Proof.
  induction r as [|v r IH]; intros pre c best Hc Hb; simpl.
  - rewrite app_nil_r. destruct best as [[b m]|]; simpl; [apply Hb|exact Hb].
  - replace (pre ++ v :: r) with ((pre ++ [v]) ++ r) by (rewrite <- app_assoc; reflexivity). apply IH.
    + intros z. unfold bump. rewrite votes_app, votes_one, Hc. destruct (Z.eqb z (as_i64 v)); lia.
    + unfold bump. rewrite Z.eqb_refl, Hc.
      assert (New : (forall z, (votes z pre <= S (votes (as_i64 v) pre))%nat) -> winner (pre ++ [v]) v /\ S (votes (as_i64 v) pre) = votes (as_i64 v) (pre ++ [v])).
      { intros H. assert (E : votes (as_i64 v) (pre ++ [v]) = S (votes (as_i64 v) pre)) by (rewrite votes_app, votes_one, Z.eqb_refl; lia).
        split; [|lia]. split.
        - intros z. rewrite E, votes_app, votes_one. destruct (Z.eqb_spec z (as_i64 v)) as [->|]; [lia|]. specialize (H z). lia.
        - exists pre, []. split; [reflexivity|]. intros w []. }
      destruct best as [[b m]|].
      * destruct Hb as [[Hmax (l1 & l2 & El & Hl)] ->]. destruct (Nat.ltb_spec (S (votes (as_i64 v) pre)) (votes (as_i64 b) pre)) as [L|L].
        -- assert (Nb : as_i64 b <> as_i64 v) by (intros E; rewrite E in L; lia).
           assert (Eb : votes (as_i64 b) (pre ++ [v]) = votes (as_i64 b) pre) by (rewrite votes_app, votes_one; destruct (Z.eqb_spec (as_i64 b) (as_i64 v)); [congruence|lia]).
           split; [|lia]. split.
           ++ intros z. rewrite Eb, votes_app, votes_one. destruct (Z.eqb_spec z (as_i64 v)) as [->|]; [lia|]. specialize (Hmax z). lia.
           ++ exists l1, (l2 ++ [v]). split; [rewrite El, <- app_assoc; reflexivity|]. intros w Hw. rewrite Eb, votes_app, votes_one.
              apply in_app_or in Hw. destruct Hw as [Hw|[<-|[]]].
              ** specialize (Hl w Hw). destruct (Z.eqb_spec (as_i64 w) (as_i64 v)) as [E|]; [rewrite E in *|]; lia.
              ** rewrite Z.eqb_refl. lia.
        -- apply New. intros z. specialize (Hmax z). lia.
      * subst pre. apply New. intros z. unfold votes. simpl. lia.
Qed.
Lemma vote_spec l : match max_by_count l (fun _ => 0%nat) None with Some v => winner l v | None => l = [] end.
Proof. apply (max_by_count_spec l []); [intros; reflexivity|reflexivity]. Qed.

(** The predicted label is a label of one of the neighbours, and its class has at
    least as many votes as any other; among the classes with the most votes it is
    the one whose last vote comes from the furthest neighbour. *)
Theorem knn_majority : forall c q k v, predict_one c q k = Ret v ->
  let l := neighbor_classes c q k in
  In v l /\ (forall z, (votes z l <= votes (as_i64 v) l)%nat) /\
  exists l1 l2, l = l1 ++ v :: l2 /\ forall w, In w l2 -> (votes (as_i64 w) l < votes (as_i64 v) l)%nat.
Proof.
  intros c q k v H l. unfold predict_one in H. fold l in H. pose proof (vote_spec l) as V. destruct (max_by_count l _ None) as [u|]; [|discriminate].
  assert (u = v) by (simpl in H; congruence). subst u. destruct V as [V1 (l1 & l2 & E & V2)]. split; [rewrite E; apply in_or_app; right; left; reflexivity|].
  split; [exact V1|]. exists l1, l2. split; [exact E|exact V2].
Qed.
Print Assumptions knn_majority.

(** Two neighbours are listed by index and label. *)
Lemma neighbor_classes_length c q k : length (neighbor_classes c q k) = Nat.min k (length (m_rows (kx c))).
Proof. unfold neighbor_classes. rewrite map_length. apply knn_neighbors. Qed.

(** Prediction panics exactly when no neighbour is asked for or there is no data. *)
Theorem knn_panics : forall c q k, predict_one c q k = Panic <-> k = 0%nat \/ m_rows (kx c) = [].
Proof.
  intros c q k. pose proof (neighbor_classes_length c q k) as L. unfold predict_one. pose proof (vote_spec (neighbor_classes c q k)) as V.
  destruct (max_by_count _ _ None) as [v|]; simpl.
  - split; [discriminate|]. intros H. destruct V as [_ (l1 & l2 & E & _)]. rewrite E, app_length in L. simpl in L.
    destruct H as [->|H]; [simpl in L; lia|rewrite H in L; simpl in L; lia].
  - split; [|reflexivity]. intros _. rewrite V in L. simpl in L. destruct k; [left; reflexivity|right]. destruct (m_rows (kx c)); [reflexivity|simpl in L; lia].
Qed.
Print Assumptions knn_panics.

(** [predict] answers row by row, and panics when the queries have another number
    of columns than the data. *)
Theorem knn_predict : forall c x k, (m_cols (kx c) <> m_cols x -> predict c x k = Panic) /\
  (forall vs, predict c x k = Ret vs -> length vs = length (m_rows x) /\
     forall i, (i < length vs)%nat -> predict_one c (nth i (m_rows x) []) k = Ret (nth i vs 0)) /\
  (m_cols (kx c) = m_cols x -> (0 < k)%nat -> m_rows (kx c) <> [] -> exists vs, predict c x k = Ret vs).
Proof.
  intros c x k. unfold predict, assertb. split; [|split].
  - intros H. apply Nat.eqb_neq in H. rewrite H. reflexivity.
  - intros vs. destruct (Nat.eqb _ _); [|discriminate]. revert vs. induction (m_rows x) as [|q r IH]; intros vs H; simpl in H.
    + assert (vs = []) by congruence. subst vs. split; [reflexivity|]. simpl. intros; lia.
    + apply bind_Ret_inv in H. destruct H as (v & E & H). apply bind_Ret_inv in H. destruct H as (ws & E2 & H).
      assert (vs = v :: ws) by congruence. subst vs. destruct (IH ws E2) as [L N]. split; [simpl; congruence|]. intros [|i] Hi; simpl; [exact E|]. apply N. simpl in Hi. lia.
  - intros E Hk Hn. apply Nat.eqb_eq in E. rewrite E. induction (m_rows x) as [|q r IH]; simpl; [eauto|].
    destruct (predict_one c q k) as [v| |] eqn:P.
    + destruct IH as [vs ->]. simpl. eauto.
    + apply knn_panics in P. destruct P; [lia|contradiction].
    + unfold predict_one in P. destruct (max_by_count _ _ _); discriminate.
Qed.
Print Assumptions knn_predict.

(** With one neighbour, a point of the training data is given the label of a
    training row equal to it: its own label when the rows are distinct. *)
Theorem knn_training_point : forall c i, (i < length (m_rows (kx c)))%nat ->
  (forall r, In r (m_rows (kx c)) -> length r = m_cols (kx c)) -> NoDup (m_rows (kx c)) ->
  predict_one c (nth i (m_rows (kx c)) []) 1 = Ret (nth i (ky c) 0).
Proof.
  intros c i Hi Hr Hn. set (q := nth i (m_rows (kx c)) []).
  destruct (knn_neighbors c q 1) as (L & _ & D & _ & F). rewrite Nat.min_l in L by lia.
  unfold predict_one, neighbor_classes. destruct (find_neighbors c q 1) as [|[j d] [|]]; simpl in L; try lia.
  destruct (D j d (or_introl eq_refl)) as [Hj Hd]. simpl. replace j with i; [reflexivity|].
  destruct (Nat.eq_dec i j) as [E|E]; [exact E|]. exfalso.
  assert (B : before (j, distance (kmetric c) (nth j (m_rows (kx c)) []) q) (i, distance (kmetric c) (nth i (m_rows (kx c)) []) q)).
  { apply F; auto; simpl; [left; reflexivity|intros [H|[]]; congruence]. }
  assert (Li : forall u, (u < length (m_rows (kx c)))%nat -> length (nth u (m_rows (kx c)) []) = m_cols (kx c)) by (intros u Hu; apply Hr, nth_In, Hu).
  assert (Z : distance (kmetric c) (nth i (m_rows (kx c)) []) q = 0) by (apply (knn_distance_metric (kmetric c) (nth i (m_rows (kx c)) []) q [] []); reflexivity).
  pose proof (proj1 (knn_distance_metric (kmetric c) (nth j (m_rows (kx c)) []) q [] [])) as P.
  unfold before in B. simpl in B. rewrite Z in B. assert (Z2 : distance (kmetric c) (nth j (m_rows (kx c)) []) q = 0) by (destruct B as [B|[B _]]; lra).
  apply (knn_distance_metric (kmetric c) (nth j (m_rows (kx c)) []) q [] []) in Z2; [|unfold q; rewrite !Li by assumption; reflexivity].
  apply E. symmetry. apply (proj1 (NoDup_nth (m_rows (kx c)) []) Hn); auto.
Qed.
Print Assumptions knn_training_point.

(** Finding: with two neighbours the nearest one is ignored. *)
Theorem knn_two_neighbors_refuted : forall c q, (2 <= length (m_rows (kx c)))%nat ->
  exists a b, find_neighbors c q 2 = [a; b] /\ predict_one c q 2 = Ret (nth (fst b) (ky c) 0).
Proof.
  intros c q Hn. destruct (knn_neighbors c q 2) as (L & _). rewrite Nat.min_l in L by lia.
  unfold predict_one, neighbor_classes. destruct (find_neighbors c q 2) as [|a [|b [|]]]; simpl in L; try lia.
  exists a, b. split; [reflexivity|]. simpl. unfold bump. rewrite !Z.eqb_refl.
  destruct (Z.eqb _ _); reflexivity.
Qed.
Print Assumptions knn_two_neighbors_refuted.

(** ** Concrete data *)
Definition two_points : knn := {| kx := {| m_cols := 1; m_rows := [[0]; [10]] |}; ky := [3; 7]; kmetric := Euclidean |}.
Example two_points_new : knn_new (kx two_points) (ky two_points) Euclidean = Ret two_points.
Proof. reflexivity. Qed.
Example two_points_nearest : predict_one two_points [0] 1 = Ret 3.
Proof.
  apply (knn_training_point two_points 0); simpl; [lia|intros r [<-|[<-|[]]]; reflexivity|].
  repeat constructor; simpl; try tauto. intros [H|[]]. injection H. lra.
Qed.
(** the query lies on the first point, whose label is 3; two neighbours give 7 *)
Example two_points_k2 : predict_one two_points [0] 2 = Ret 7.
Proof.
  destruct (knn_two_neighbors_refuted two_points [0]) as (a & b & E & P); [simpl; lia|]. rewrite P. clear P.
  unfold find_neighbors, distances in E. simpl in E. unfold power_sum in E. simpl in E.
  destruct (Rltb_spec (sqrt (0 + Rabs (10 - 0) * (Rabs (10 - 0) * 1))) (sqrt (0 + Rabs (0 - 0) * (Rabs (0 - 0) * 1)))) as [H|H].
  - exfalso. apply sqrt_lt_0_alt in H. replace (Rabs (0 - 0)) with 0 in H by (rewrite Rminus_diag_eq, Rabs_R0; reflexivity).
    assert (0 <= Rabs (10 - 0)) by apply Rabs_pos. nra.
  - assert (b = (1%nat, sqrt (0 + Rabs (10 - 0) * (Rabs (10 - 0) * 1)))) by congruence. subst b. reflexivity.
Qed.

(** Finding: labels are counted by their integer part, so unequal labels are
    pooled and a label held by one neighbour can beat one held by two. *)
Lemma as_i64_small x n : IZR n <= x < IZR n + 1 -> (0 <= n < 2 ^ 63)%Z -> as_i64 x = n.
Proof.
  intros [H1 H2] Hn. unfold as_i64, trunc. assert (0 <= IZR n) by (apply IZR_le; lia). destruct (Rltb_spec x 0); [lra|].
  assert (E : Int_part x = n). { symmetry. unfold Int_part. rewrite <- (tech_up x (n + 1)); [lia| |]; rewrite plus_IZR; lra. }
  rewrite E. lia.
Qed.
Theorem knn_fractional_labels_refuted : exists l v, max_by_count l (fun _ => 0%nat) None = Some v /\
  count_occ Req_EM_T l v = 1%nat /\ count_occ Req_EM_T l 5 = 2%nat.
Proof.
  exists [5; 5; 1 / 10; 2 / 10; 3 / 10], (3 / 10).
  assert (E5 : as_i64 5 = 5%Z) by (apply as_i64_small; [lra|lia]).
  assert (E1 : as_i64 (1 / 10) = 0%Z) by (apply as_i64_small; [lra|lia]).
  assert (E2 : as_i64 (2 / 10) = 0%Z) by (apply as_i64_small; [lra|lia]).
  assert (E3 : as_i64 (3 / 10) = 0%Z) by (apply as_i64_small; [lra|lia]).
  split; [|split].
  - cbn [max_by_count]. unfold bump. rewrite E5, E1, E2, E3. reflexivity.
  - simpl. repeat (destruct (Req_EM_T _ _); try lra). reflexivity.
  - simpl. repeat (destruct (Req_EM_T _ _); try lra). reflexivity.
Qed.
Print Assumptions knn_fractional_labels_refuted.
