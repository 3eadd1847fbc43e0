(** C93: order statistics of binary64 vectors: minimum, maximum, range, sorting, median,
    quantiles and the interquartile range. *)
From Coq Require Import ZArith Reals Lra Lia List Bool Psatz Permutation Sorting.Sorted.
From Flocq Require Import Core.Core IEEE754.BinarySingleNaN Relative Plus_error Sterbenz.
From Verif Require Import Res F64Model F64Base F64Sum.
Import ListNotations.
Open Scope R_scope.

Definition num (x : f64) : Prop := is_nan x = false.
(** infinities as the two powers of two beyond the finite numbers *)
Definition ext (x : f64) : R := match x with B754_infinity s => if s then - fmaxR else fmaxR | _ => val x end.
Lemma ext_fin x : fin x -> ext x = val x. Proof. destruct x; try reflexivity; discriminate. Qed.
Lemma fin_num x : fin x -> num x. Proof. destruct x; try reflexivity; discriminate. Qed.
Lemma fcmp_ext x y : num x -> num y -> fcmp x y = Some (Rcompare (ext x) (ext y)).
Proof. intros X Y. destruct (is_finite x) eqn:A; [destruct (is_finite y) eqn:B |].
  - rewrite !ext_fin by assumption. apply fcmp_R; assumption.
  - pose proof (val_lt x) as L. apply Rabs_def2 in L. rewrite (ext_fin x A). destruct y as [s | s | | s m e b]; try discriminate.
    destruct s; simpl ext; [rewrite Rcompare_Gt by lra | rewrite Rcompare_Lt by lra]; destruct x as [s' | s' | | s' m' e' b']; try discriminate A; reflexivity.
  - assert (P : 0 < fmaxR) by apply bpow_gt_0. destruct x as [s | s | | s m e b]; try discriminate. destruct (is_finite y) eqn:B.
    + pose proof (val_lt y) as L. apply Rabs_def2 in L. rewrite (ext_fin y B).
      destruct s; simpl ext; [rewrite Rcompare_Lt by lra | rewrite Rcompare_Gt by lra]; destruct y as [s' | s' | | s' m' e' b']; try discriminate B; reflexivity.
    + destruct y as [s' | s' | | s' m' e' b']; try discriminate. destruct s, s'; simpl ext; [rewrite Rcompare_Eq by lra | rewrite Rcompare_Lt by lra | rewrite Rcompare_Gt by lra | rewrite Rcompare_Eq by lra]; reflexivity. Qed.
Lemma fcmp_nan x y : ~ num x \/ ~ num y -> fcmp x y = None.
Proof. unfold num. intros [H | H]; destruct x, y; try reflexivity; exfalso; apply H; reflexivity. Qed.
Lemma fle_cmp x y : fle x y = match fcmp x y with Some Lt | Some Eq => true | _ => false end. Proof. reflexivity. Qed.
Lemma flt_cmp x y : flt x y = match fcmp x y with Some Lt => true | _ => false end. Proof. reflexivity. Qed.
Lemma fle_ext x y : num x -> num y -> (fle x y = true <-> ext x <= ext y).
Proof. intros X Y. rewrite fle_cmp, fcmp_ext by assumption. case Rcompare_spec; split; intros; auto; try discriminate; lra. Qed.
Lemma flt_ext x y : num x -> num y -> (flt x y = true <-> ext x < ext y).
Proof. intros X Y. rewrite flt_cmp, fcmp_ext by assumption. case Rcompare_spec; split; intros; auto; try discriminate; lra. Qed.
Lemma fle_num x y : fle x y = true -> num x /\ num y.
Proof. intros H. unfold num. destruct (is_nan x) eqn:A; [| destruct (is_nan y) eqn:B; [| auto]]; rewrite fle_cmp, fcmp_nan in H; try discriminate; unfold num; [left | right]; congruence. Qed.
Lemma fle_trans x y z : fle x y = true -> fle y z = true -> fle x z = true.
Proof. intros A B. destruct (fle_num _ _ A), (fle_num _ _ B). apply fle_ext in A, B; try assumption. apply fle_ext; try assumption. lra. Qed.
Lemma fle_refl x : num x -> fle x x = true. Proof. intros X. apply fle_ext; try assumption. lra. Qed.
Lemma num_dec x : num x \/ ~ num x. Proof. unfold num. destruct (is_nan x); [right; discriminate | left; reflexivity]. Qed.
Lemma ext_bound x : num x -> - fmaxR <= ext x <= fmaxR.
Proof. intros X. assert (P : 0 < fmaxR) by apply bpow_gt_0. destruct (is_finite x) eqn:A. rewrite ext_fin by exact A. pose proof (val_lt x) as L. apply Rabs_def2 in L. lra.
  destruct x as [s | s | | s m e b]; try discriminate. destruct s; simpl; lra. Qed.

(** *** Minimum and maximum *)
Lemma fold_min l : forall a, num a -> let m := fold_left fmin l a in
  num m /\ fle m a = true /\ (forall x, In x l -> num x -> fle m x = true) /\ (m = a \/ In m l).
Proof. induction l as [| x l IH]; intros a A; cbn [fold_left].
  - repeat split. exact A. apply fle_refl, A. intros x []. left; reflexivity.
  - assert (S : num (fmin a x) /\ fle (fmin a x) a = true /\ (num x -> fle (fmin a x) x = true) /\ (fmin a x = a \/ fmin a x = x)).
    { unfold fmin. rewrite A. destruct (is_nan x) eqn:X. { repeat split; auto. apply fle_refl, A. intros K. unfold num in K. congruence. }
      destruct (flt x a) eqn:L. { apply flt_ext in L; auto. repeat split; auto. apply fle_ext; auto; lra. intros _. apply fle_refl, X. }
      repeat split; auto. apply fle_refl, A. intros _. apply fle_ext; auto. destruct (Rle_or_lt (ext a) (ext x)) as [K | K]; auto. apply flt_ext in K; auto. congruence. }
    destruct S as (S1 & S2 & S3 & S4). destruct (IH _ S1) as (P & Q & R & T). split. exact P. split. eapply fle_trans; eassumption. split.
    + intros y [<- | Y] N. eapply fle_trans. exact Q. apply S3, N. apply R; assumption.
    + destruct T as [T | T]. rewrite T. destruct S4 as [-> | ->]. left; reflexivity. right; left; reflexivity. right; right; exact T. Qed.
Lemma fold_max l : forall a, num a -> let m := fold_left fmax l a in
  num m /\ fle a m = true /\ (forall x, In x l -> num x -> fle x m = true) /\ (m = a \/ In m l).
Proof. induction l as [| x l IH]; intros a A; cbn [fold_left].
  - repeat split. exact A. apply fle_refl, A. intros x []. left; reflexivity.
  - assert (S : num (fmax a x) /\ fle a (fmax a x) = true /\ (num x -> fle x (fmax a x) = true) /\ (fmax a x = a \/ fmax a x = x)).
    { unfold fmax. rewrite A. destruct (is_nan x) eqn:X. { repeat split; auto. apply fle_refl, A. intros K. unfold num in K. congruence. }
      destruct (flt a x) eqn:L. { apply flt_ext in L; auto. repeat split; auto. apply fle_ext; auto; lra. intros _. apply fle_refl, X. }
      repeat split; auto. apply fle_refl, A. intros _. apply fle_ext; auto. destruct (Rle_or_lt (ext x) (ext a)) as [K | K]; auto. apply flt_ext in K; auto. congruence. }
    destruct S as (S1 & S2 & S3 & S4). destruct (IH _ S1) as (P & Q & R & T). split. exact P. split. eapply fle_trans; eassumption. split.
    + intros y [<- | Y] N. eapply fle_trans. apply S3, N. exact Q. apply R; assumption.
    + destruct T as [T | T]. rewrite T. destruct S4 as [-> | ->]. left; reflexivity. right; left; reflexivity. right; right; exact T. Qed.

(** The minimum is an element, at most every number of the vector: NaNs are ignored.  When all
    elements are NaNs it is plus infinity. *)
Theorem min_spec l m : vmin64 l = Ret m -> (forall x, In x l -> num x -> fle m x = true) /\ ((exists x, In x l /\ num x) -> In m l /\ num m) /\ ((forall x, In x l -> ~ num x) -> m = pinf).
Proof. unfold vmin64. destruct (nonempty l); [| discriminate]. cbn. intros H. injection H as <-. destruct (fold_min l pinf eq_refl) as (A & B & C & D). split. exact C. split.
  - intros (x & X & N). split. 2: exact A. destruct D as [D | D]; [| exact D]. rewrite D in C. rewrite D. pose proof (C x X N) as K. apply fle_ext in K; auto. 2: reflexivity.
    pose proof (ext_bound x N) as E. change (ext pinf) with fmaxR in K. destruct (is_finite x) eqn:FX. { pose proof (val_lt x) as L. rewrite ext_fin in K by exact FX. apply Rabs_def2 in L. lra. }
    destruct x as [s | s | | s m e b]; try discriminate. destruct s. simpl in K. assert (0 < fmaxR) by apply bpow_gt_0. lra. exact X.
  - intros N. destruct D as [D | D]. exact D. elim (N _ D A). Qed.
Theorem max_spec l m : vmax64 l = Ret m -> (forall x, In x l -> num x -> fle x m = true) /\ ((exists x, In x l /\ num x) -> In m l /\ num m) /\ ((forall x, In x l -> ~ num x) -> m = ninf).
Proof. unfold vmax64. destruct (nonempty l); [| discriminate]. cbn. intros H. injection H as <-. destruct (fold_max l ninf eq_refl) as (A & B & C & D). split. exact C. split.
  - intros (x & X & N). split. 2: exact A. destruct D as [D | D]; [| exact D]. rewrite D in C. rewrite D. pose proof (C x X N) as K. apply fle_ext in K; auto. 2: reflexivity.
    pose proof (ext_bound x N) as E. change (ext ninf) with (- fmaxR) in K. destruct (is_finite x) eqn:FX. { pose proof (val_lt x) as L. rewrite ext_fin in K by exact FX. apply Rabs_def2 in L. lra. }
    destruct x as [s | s | | s m e b]; try discriminate. destruct s. exact X. simpl in K. assert (0 < fmaxR) by apply bpow_gt_0. lra.
  - intros N. destruct D as [D | D]. exact D. elim (N _ D A). Qed.
Theorem min_max_total l : (vmin64 l = Panic <-> l = []) /\ (vmax64 l = Panic <-> l = []) /\ (range64 l = Panic <-> l = []).
Proof. destruct l; repeat split; intros H; try reflexivity; discriminate. Qed.
(** The range of finite numbers is the rounded difference of two elements, at least every difference. *)
Lemma range_eval l r : range64 l = Ret r -> exists a b, vmax64 l = Ret a /\ vmin64 l = Ret b /\ r = fsub a b.
Proof. unfold range64, vmax64, vmin64. destruct (nonempty l); [| discriminate]. cbn. intros H. injection H as <-. eauto. Qed.
Theorem range_spec l r : Forall fin l -> range64 l = Ret r -> fin r ->
  0 <= val r /\ (exists a b, In a l /\ In b l /\ val r = rnd (val a - val b)) /\ forall x y, In x l -> In y l -> val (fsub x y) <= val r /\ fin (fsub x y).
Proof. intros F H R. destruct (range_eval l r H) as (a & b & A & B & E). subst r. destruct l as [| z l]. discriminate. rewrite Forall_forall in F.
  assert (Z : exists x, In x (z :: l) /\ num x) by (exists z; split; [left; reflexivity | apply fin_num, F; left; reflexivity]).
  destruct (max_spec _ _ A) as (A1 & A2 & _). destruct (min_spec _ _ B) as (B1 & B2 & _). destruct (A2 Z) as [Ia _]. destruct (B2 Z) as [Ib _].
  destruct (fsub_fin _ _ R) as (Fa & Fb & V & W). assert (O : forall x, In x (z :: l) -> val b <= val x <= val a).
  { intros x X. pose proof (F x X) as Fx. pose proof (A1 x X (fin_num x Fx)) as P. pose proof (B1 x X (fin_num x Fx)) as Q. apply fle_R in P, Q; auto. }
  assert (G : forall x y, In x (z :: l) -> In y (z :: l) -> fin (fsub x y) /\ val (fsub x y) <= val (fsub a b)).
  { intros x y X Y. pose proof (O x X). pose proof (O y Y). assert (Lo : - rnd (val a - val b) <= rnd (val x - val y)).
    { unfold rnd. rewrite <- round_NE_opp. apply rnd_le. lra. }
    assert (Hi : rnd (val x - val y) <= rnd (val a - val b)) by (apply rnd_le; lra).
    destruct (fsub_R x y (F x X) (F y Y)) as [P Q]. apply Rabs_def2 in W. apply Rabs_def1; lra. split. exact P. rewrite Q, V. exact Hi. }
  split. { rewrite V. apply rnd_ge. apply generic_format_0. pose proof (O b Ib). pose proof (O a Ia). lra. }
  split. { exists a, b. auto. } intros x y X Y. destruct (G x y X Y). auto. Qed.

(** *** Sorting *)
Definition leb_sorted := StronglySorted (fun a b => fle a b = true).
Lemma insert_num x l : num x -> Forall num l -> leb_sorted l -> exists r, finsert x l = Ret r /\ Permutation (x :: l) r /\ leb_sorted r.
Proof. intros X. induction l as [| y l IH]; intros N S.
  - exists [x]. repeat split; repeat constructor.
  - inversion N as [| y' l' Y N']; subst. inversion S as [| y' l' S' M]; subst. cbn [finsert]. rewrite fcmp_ext by assumption. cbn [unwrap bind].
    assert (CONS : ext x <= ext y -> leb_sorted (x :: y :: l)).
    { intros K. constructor. exact S. constructor. apply fle_ext; assumption. rewrite Forall_forall in *. intros z Z. eapply fle_trans. apply fle_ext; eassumption. apply M, Z. }
    case Rcompare_spec; intros K.
    + exists (x :: y :: l). split. reflexivity. split. reflexivity. apply CONS. lra.
    + exists (x :: y :: l). split. reflexivity. split. reflexivity. apply CONS. lra.
    + destruct (IH N' S') as (r & E & P & Q). rewrite E. cbn [bind]. exists (y :: r). split. reflexivity. split. rewrite perm_swap. constructor. exact P. constructor. exact Q.
      rewrite Forall_forall in *. intros z Z. apply (Permutation_in _ (Permutation_sym P)) in Z. destruct Z as [<- | Z]. apply fle_ext; auto; lra. apply M, Z. Qed.
Lemma sort_num l : Forall num l -> exists r, fsort l = Ret r /\ Permutation l r /\ leb_sorted r.
Proof. induction 1 as [| x l X N IH]. exists []. repeat split; constructor. destruct IH as (r & E & P & S).
  assert (NR : Forall num r). { rewrite Forall_forall in *. intros z Z. apply N. apply (Permutation_in _ (Permutation_sym P) Z). }
  destruct (insert_num x r X NR S) as (t & E' & P' & S'). exists t. cbn. rewrite E. cbn. split. exact E'. split. rewrite <- P'. constructor. exact P. exact S'. Qed.
Lemma sort_nan l : (2 <= length l)%nat -> Exists (fun x => ~ num x) l -> fsort l = Panic.
Proof. induction l as [| x l IH]; intros L N; simpl in L. lia. cbn [fsort].
  destruct l as [| y l]. simpl in L; lia. destruct l as [| w l].
  - cbn. rewrite fcmp_nan. reflexivity. inversion N; subst; auto. inversion H0; subst; auto. inversion H1.
  - destruct (Exists_dec (fun x => ~ num x) (y :: w :: l)) as [D | D]. { intros z. unfold num. destruct (is_nan z); [left | right]; congruence. }
    + rewrite IH; try assumption. reflexivity. simpl. lia.
    + inversion N as [? ? X | ? ? X]; subst. 2: contradiction. assert (Forall num (y :: w :: l)). { apply Forall_forall. intros z Z. destruct (num_dec z); auto. exfalso. apply D. apply Exists_exists. eauto. }
      destruct (sort_num _ H) as (r & E & P & _). rewrite E. cbn. destruct r as [| z r]. apply Permutation_sym, Permutation_nil in P. discriminate. cbn. rewrite fcmp_nan; auto. Qed.
(** Sorting succeeds, unless there are at least two elements of which one is a NaN. *)
Theorem sort_spec l : (fsort l = Panic <-> (2 <= length l)%nat /\ Exists (fun x => ~ num x) l) /\ (fsort l <> Panic -> exists s, fsort l = Ret s /\ Permutation l s /\ ((2 <= length l)%nat -> leb_sorted s)).
Proof. destruct (Exists_dec (fun x => ~ num x) l) as [D | D]. { intros z. unfold num. destruct (is_nan z); [left | right]; congruence. }
  - destruct (Nat.le_gt_cases 2 (length l)) as [L | L].
    + rewrite (sort_nan l L D). split. tauto. congruence.
    + destruct l as [| x [| y l]]; simpl in L; try lia. inversion D. cbn. split. split. discriminate. intros [K _]. lia. intros _. exists [x]. repeat split. constructor; constructor. intros K. lia.
  - assert (N : Forall num l). { apply Forall_forall. intros z Z. destruct (num_dec z); auto. exfalso. apply D. apply Exists_exists. eauto. }
    destruct (sort_num l N) as (r & E & P & S). rewrite E. split. split. discriminate. intros [_ K]. contradiction. intros _. exists r. auto. Qed.

(** positions of a sorted list *)
Lemma sorted_nth s : leb_sorted s -> forall i j a b, (i <= j)%nat -> nth_error s i = Some a -> nth_error s j = Some b -> num a -> fle a b = true.
Proof. induction 1 as [| x s S IH M]; intros i j a b L A B N. destruct i; discriminate. destruct i, j; simpl in A, B.
  - injection A as <-. injection B as <-. apply fle_refl, N.
  - injection A as <-. rewrite Forall_forall in M. apply M. apply (nth_error_In _ _ B).
  - lia.
  - apply (IH i j); auto. lia. Qed.
Fixpoint count {A} (p : A -> bool) (l : list A) : nat := match l with [] => 0 | x :: l' => (if p x then 1 else 0) + count p l' end%nat.
Lemma count_perm {A} (p : A -> bool) l l' : Permutation l l' -> count p l = count p l'.
Proof. induction 1; simpl; lia. Qed.
Lemma count_firstn {A} (p : A -> bool) l : forall k, (k <= length l)%nat -> (forall i x, (i < k)%nat -> nth_error l i = Some x -> p x = true) -> (k <= count p l)%nat.
Proof. induction l as [| x l IH]; intros k L H; simpl in *. lia. destruct k. lia. rewrite (H 0%nat x) by (auto; lia). assert (k <= count p l)%nat. apply IH. lia. intros i y I Y. apply (H (S i)). lia. exact Y. lia. Qed.
Lemma count_skipn {A} (p : A -> bool) l : forall k, (k <= length l)%nat -> (forall i x, (k <= i)%nat -> nth_error l i = Some x -> p x = true) -> (length l - k <= count p l)%nat.
Proof. induction l as [| x l IH]; intros k L H; simpl in *. lia. destruct k.
  - rewrite (H 0%nat x) by (auto; lia). assert (length l - 0 <= count p l)%nat. apply IH. lia. intros i y I Y. apply (H (S i)). lia. exact Y. lia.
  - assert (length l - k <= count p l)%nat. apply IH. lia. intros i y I Y. apply (H (S i)). lia. exact Y. lia. Qed.
Lemma nth_ex {A} (l : list A) k : (k < length l)%nat -> exists x, nth_error l k = Some x.
Proof. intros H. destruct (nth_error l k) eqn:E. eauto. apply nth_error_None in E. lia. Qed.

(** *** Median *)
Theorem median_panics l : median64 l = Panic <-> l = [] \/ ((2 <= length l)%nat /\ Exists (fun x => ~ num x) l).
Proof. destruct l as [| x l]. split; auto. unfold median64. cbn [nonempty length Nat.eqb negb assertb]. destruct (sort_spec (x :: l)) as [P Q]. destruct (fsort (x :: l)) as [s | |] eqn:E.
  - cbn [bind]. destruct Q as (s' & E' & Pm & _). discriminate. injection E' as <-. rewrite <- (Permutation_length Pm). set (n := length (x :: l)) in *.
    assert (N : n = length s) by (apply (Permutation_length Pm)). assert (N1 : (1 <= n)%nat) by (unfold n; simpl; lia).
    split. 2: { intros [K | K]. discriminate. apply P in K. discriminate. }
    intros K. exfalso. revert K. assert (M : (n / 2 < length s)%nat) by (rewrite <- N; apply Nat.div_lt; lia). destruct (nth_ex s (n / 2) M) as [b B].
    destruct (nth_ex s (n / 2 - 1)) as [a A]. lia. unfold findex. rewrite A, B. destruct (n mod 2 =? 0)%nat; discriminate.
  - cbn. split; auto. intros _. right. apply P. reflexivity.
  - destruct Q as (s' & E' & _); discriminate. Qed.

Lemma median_eval l m : median64 l = Ret m -> Forall fin l -> exists s, Permutation l s /\ leb_sorted s /\ Forall fin s /\
  ((length s mod 2 = 1)%nat /\ nth_error s (length s / 2) = Some m \/ (length s mod 2 = 0)%nat /\ exists a b, nth_error s (length s / 2 - 1) = Some a /\ nth_error s (length s / 2) = Some b /\ m = fdiv (fadd a b) two).
Proof. unfold median64. destruct (nonempty l) eqn:NE; [| discriminate]. cbn [assertb]. intros H F. destruct (sort_num l) as (s & E & P & S). { eapply Forall_impl. 2: exact F. intros; apply fin_num; assumption. }
  rewrite E in H. cbn [bind] in H. exists s. split. exact P. split. exact S. split. { rewrite Forall_forall in *. intros z Z. apply F. apply (Permutation_in _ (Permutation_sym P) Z). }
  destruct (length s mod 2 =? 0)%nat eqn:M.
  - right. apply Nat.eqb_eq in M. split. exact M. unfold findex in H. destruct (nth_error s (length s / 2 - 1)) as [a |]; [| discriminate]. destruct (nth_error s (length s / 2)) as [b |]; [| discriminate].
    cbn in H. injection H as <-. exists a, b. auto.
  - left. apply Nat.eqb_neq in M. pose proof (Nat.mod_upper_bound (length s) 2). split. lia. unfold findex in H. destruct (nth_error s (length s / 2)) as [b |]; [| discriminate]. cbn in H. congruence. Qed.
Lemma half_between a b : fin a -> fin b -> val a <= val b -> fin (fadd a b) -> let m := fdiv (fadd a b) two in fin m /\ val a <= val m <= val b /\ val m = rnd (rnd (val a + val b) / 2).
Proof. intros A B L S m. destruct (fadd_fin _ _ S) as (_ & _ & V & _). destruct two_R as [_ T].
  assert (L1 : 2 * val a <= val (fadd a b)). { rewrite V. apply rnd_ge. apply fmt_2, val_fmt. lra. }
  assert (L2 : val (fadd a b) <= 2 * val b). { rewrite V. apply rnd_le_fmt. apply fmt_2, val_fmt. lra. }
  assert (K : val a <= rnd (val (fadd a b) / 2) <= val b). { split. apply rnd_ge. apply val_fmt. lra. apply rnd_le_fmt. apply val_fmt. lra. }
  destruct (fdiv_R (fadd a b) two S) as [P Q]. rewrite T. lra. rewrite T. apply (between_lt (val a) (val b)); try apply val_lt. exact K.
  rewrite T in Q. split. exact P. unfold m. rewrite Q. split. exact K. rewrite V. reflexivity. Qed.

(** At least half of the elements are at most the median, and at least half are at least the
    median, provided the sum of the two central elements does not overflow. *)
Theorem median_half l m : median64 l = Ret m -> Forall fin l -> fin m ->
  (length l <= 2 * count (fun x => fle x m) l)%nat /\ (length l <= 2 * count (fun x => fle m x) l)%nat.
Proof. intros H F M. destruct (median_eval l m H F) as (s & P & S & Fs & D). rewrite (Permutation_length P), !(count_perm _ _ _ P). rewrite Forall_forall in Fs.
  pose proof (Nat.div_mod (length s) 2) as DM. assert (IN : forall i x, nth_error s i = Some x -> fin x) by (intros i x X; apply Fs; apply (nth_error_In _ _ X)).
  destruct D as [[O N] | [O (a & b & A & B & E)]].
  - assert (length s / 2 < length s)%nat by (apply nth_error_Some; congruence). split.
    + assert (length s / 2 + 1 <= count (fun x => fle x m) s)%nat. { apply count_firstn. lia. intros i x I X. apply (sorted_nth s S i (length s / 2)); auto. lia. apply fin_num, (IN _ _ X). } lia.
    + assert (length s - length s / 2 <= count (fun x => fle m x) s)%nat. { apply count_skipn. lia. intros i x I X. apply (sorted_nth s S (length s / 2) i); auto. apply fin_num, M. } lia.
  - assert (length s / 2 < length s)%nat by (apply nth_error_Some; congruence). assert (Fa := IN _ _ A). assert (Fb := IN _ _ B).
    assert (AB : val a <= val b). { apply fle_R; auto. apply (sorted_nth s S (length s / 2 - 1) (length s / 2)); auto. lia. apply fin_num, Fa. }
    assert (SUM : fin (fadd a b)). { subst m. destruct two_R as [_ T]. destruct (fdiv_fin (fadd a b) two) as [K _]; auto. rewrite T. lra. }
    destruct (half_between a b Fa Fb AB SUM) as (_ & [Lo Hi] & _). rewrite <- E in Lo, Hi. apply fle_R in Lo, Hi; auto. split.
    + assert (length s / 2 <= count (fun x => fle x m) s)%nat. { apply count_firstn. lia. intros i x I X. apply fle_trans with a. apply (sorted_nth s S i (length s / 2 - 1)); auto. lia. apply fin_num, (IN _ _ X). exact Lo. } lia.
    + assert (length s - length s / 2 <= count (fun x => fle m x) s)%nat. { apply count_skipn. lia. intros i x I X. apply fle_trans with b. exact Hi. apply (sorted_nth s S (length s / 2) i); auto. apply fin_num, Fb. } lia. Qed.
(** For an even number of elements it is the midpoint of the two central ones up to rounding,
    for an odd number the central one. *)
Theorem median_midpoint l m : median64 l = Ret m -> Forall fin l -> fin m -> exists s, Permutation l s /\ leb_sorted s /\
  ((length l mod 2 = 1)%nat -> nth_error s (length l / 2) = Some m) /\
  ((length l mod 2 = 0)%nat -> exists a b, nth_error s (length l / 2 - 1) = Some a /\ nth_error s (length l / 2) = Some b /\ val a <= val m <= val b /\
     Rabs (val m - (val a + val b) / 2) <= ((1 + u) ^ 2 - 1) * Rabs ((val a + val b) / 2) + eta).
Proof. intros H F M. destruct (median_eval l m H F) as (s & P & S & Fs & D). exists s. rewrite (Permutation_length P). split. exact P. split. exact S.
  destruct D as [[O N] | [O (a & b & A & B & E)]]; (split; intros O'; try congruence). exists a, b. split. exact A. split. exact B. rewrite Forall_forall in Fs.
  assert (Fa := Fs _ (nth_error_In _ _ A)). assert (Fb := Fs _ (nth_error_In _ _ B)).
  assert (AB : val a <= val b). { apply fle_R; auto. apply (sorted_nth s S (length s / 2 - 1) (length s / 2)); auto. lia. apply fin_num, Fa. }
  assert (SUM : fin (fadd a b)). { subst m. destruct two_R as [_ T]. destruct (fdiv_fin (fadd a b) two) as [K _]; auto. rewrite T. lra. }
  destruct (half_between a b Fa Fb AB SUM) as (_ & L & V). rewrite <- E in L, V. split. exact L. rewrite V.
  destruct (rnd_plus_err (val a) (val b) (val_fmt a) (val_fmt b)) as (e & He & R). rewrite R. destruct (rnd_err ((val a + val b) * (1 + e) / 2)) as (e' & h & He' & Hh & R'). rewrite R'.
  set (c := (val a + val b) / 2). replace ((val a + val b) * (1 + e) / 2 * (1 + e') + h - c) with (c * (e + e' + e * e') + h) by (unfold c; field).
  eapply Rle_trans. apply Rabs_triang. apply Rplus_le_compat. 2: exact Hh. rewrite Rabs_mult, Rmult_comm. apply Rmult_le_compat_r. apply Rabs_pos.
  eapply Rle_trans. apply Rabs_triang. eapply Rle_trans. apply Rplus_le_compat. apply Rabs_triang. rewrite Rabs_mult. apply Rmult_le_compat; try apply Rabs_pos; eassumption. pose proof u_pos. simpl. lra. Qed.
(** The midpoint of two large finite numbers overflows. *)
Theorem median_overflow_refuted : exists l, Forall fin l /\ median64 l = Ret pinf.
Proof. exists [fmaxv; fmaxv]. split. repeat constructor. apply same_res. vm_compute. reflexivity. Qed.

(** *** Interquartile range *)
Theorem iqr_spec l : (iqr64 l = Panic <-> l = [] \/ ((2 <= length l)%nat /\ Exists (fun x => ~ num x) l)) /\
  (forall r, Forall fin l -> iqr64 l = Ret r -> exists a b, In a l /\ In b l /\ val a <= val b /\ r = fsub b a /\
     (length l / 4 + 1 <= count (fun x => fle x a) l)%nat /\ (length l * 3 / 4 + 1 <= count (fun x => fle x b) l)%nat /\
     (length l - length l / 4 <= count (fun x => fle a x) l)%nat /\ (length l - length l * 3 / 4 <= count (fun x => fle b x) l)%nat).
Proof. split.
  - destruct l as [| x l]. split; auto. unfold iqr64. cbn [nonempty length Nat.eqb negb assertb]. destruct (sort_spec (x :: l)) as [P Q]. destruct (fsort (x :: l)) as [s | |] eqn:E.
    + cbn [bind]. destruct Q as (s' & E' & Pm & _). discriminate. injection E' as <-. assert (N : (1 <= length s)%nat) by (rewrite <- (Permutation_length Pm); simpl; lia).
      split. 2: { intros [K | K]. discriminate. apply P in K. discriminate. } intros K. exfalso. revert K. unfold findex.
      destruct (nth_ex s (length s / 4)) as [a A]. apply Nat.div_lt; lia. destruct (nth_ex s (length s * 3 / 4)) as [b B]. apply Nat.div_lt_upper_bound; lia. rewrite A, B. discriminate.
    + cbn. split; auto. intros _. right. apply P. reflexivity.
    + destruct Q as (s' & E' & _); discriminate.
  - intros r F H. unfold iqr64 in H. destruct (nonempty l) eqn:NE; [| discriminate]. cbn [assertb] in H. destruct (sort_num l) as (s & E & P & S). { eapply Forall_impl. 2: exact F. intros; apply fin_num; assumption. }
    rewrite E in H. cbn [bind] in H. rewrite (Permutation_length P). unfold findex in H. destruct (nth_error s (length s / 4)) as [a |] eqn:A; [| discriminate]. destruct (nth_error s (length s * 3 / 4)) as [b |] eqn:B; [| discriminate]. cbn in H. injection H as <-.
    rewrite Forall_forall in F. assert (Ia : In a l) by (apply (Permutation_in _ (Permutation_sym P) (nth_error_In _ _ A))). assert (Ib : In b l) by (apply (Permutation_in _ (Permutation_sym P) (nth_error_In _ _ B))).
    assert (IN : forall i x, nth_error s i = Some x -> num x) by (intros i x X; apply fin_num, F; apply (Permutation_in _ (Permutation_sym P) (nth_error_In _ _ X))).
    assert (L1 : (length s / 4 < length s)%nat) by (apply nth_error_Some; congruence). assert (L2 : (length s * 3 / 4 < length s)%nat) by (apply nth_error_Some; congruence).
    exists a, b. rewrite (count_perm (fun x => fle x a) _ _ P), (count_perm (fun x => fle x b) _ _ P), (count_perm (fun x => fle a x) _ _ P), (count_perm (fun x => fle b x) _ _ P). split. exact Ia. split. exact Ib. split. { apply fle_R; auto. apply (sorted_nth s S (length s / 4) (length s * 3 / 4)); auto. apply Nat.div_le_mono; lia. apply (IN _ _ A). }
    split. reflexivity. repeat split.
    + apply count_firstn. lia. intros i x I X. apply (sorted_nth s S i (length s / 4)); auto. lia. apply (IN _ _ X).
    + apply count_firstn. lia. intros i x I X. apply (sorted_nth s S i (length s * 3 / 4)); auto. lia. apply (IN _ _ X).
    + apply count_skipn. lia. intros i x I X. apply (sorted_nth s S (length s / 4) i); auto. apply (IN _ _ A).
    + apply count_skipn. lia. intros i x I X. apply (sorted_nth s S (length s * 3 / 4) i); auto. apply (IN _ _ B). Qed.

Print Assumptions min_spec.
Print Assumptions max_spec.
Print Assumptions min_max_total.
Print Assumptions range_spec.
Print Assumptions sort_spec.
Print Assumptions median_panics.
Print Assumptions median_half.
Print Assumptions median_midpoint.
Print Assumptions median_overflow_refuted.
Print Assumptions iqr_spec.

(** Non-vacuity *)
Example min_case : vmin64 [one; nan; tenth] = Ret tenth /\ vmax64 [one; nan; tenth] = Ret one /\ vmin64 [nan] = Ret pinf /\ range64 [nan; nan] = Ret ninf.
Proof. repeat split; apply same_res; vm_compute; reflexivity. Qed.
Example median_case : median64 [lit 6 0; one; two; lit 9 0] = Ret (lit 4 0) /\ median64 [lit 6 0; one; two] = Ret two /\ median64 [one; nan] = Panic /\ median64 [nan] = Ret nan.
Proof. repeat split; try (apply same_res; vm_compute; reflexivity). Qed.
Example iqr_case : iqr64 [lit 6 0; one; two; lit 9 0] = Ret (lit 7 0) /\ range64 [lit 6 0; one; two; lit 9 0] = Ret (lit 8 0).
Proof. repeat split; apply same_res; vm_compute; reflexivity. Qed.
