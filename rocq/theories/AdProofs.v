(** Proofs about the automatic differentiation model. *)
From Coq Require Import Reals List ZArith Lia Lra.
From Coquelicot Require Import Coquelicot.
From Verif Require Import Res SpecialFns AdModel AdSpec.
Import ListNotations.
Open Scope R_scope.

(** ** Weighted sums over adjoint vectors *)

Fixpoint dot (f : nat -> R) (l : list R) : R :=
  match l with
  | [] => 0
  | a :: l' => a * f O + dot (fun k => f (S k)) l'
  end.

Lemma add_at_spec i d l f :
  (i < length l)%nat ->
  exists l', add_at i d l = Ret l' /\ length l' = length l /\
             dot f l' = dot f l + d * f i.
Proof.
  revert i f; induction l as [|a l IH]; intros i f Hi; simpl in Hi; [lia|].
  destruct i as [|i]; simpl.
  - eexists; split; [reflexivity|]; split; [reflexivity|]. simpl. ring.
  - destruct (IH i (fun k => f (S k))) as (l' & E & L & Hd); [lia|].
    rewrite E; simpl. eexists; split; [reflexivity|]. split; [simpl; lia|].
    simpl. rewrite Hd. ring.
Qed.

Lemma set_at_spec i d l f :
  (i < length l)%nat -> (forall x, In x l -> x = 0) ->
  exists l', set_at i d l = Ret l' /\ length l' = length l /\ dot f l' = d * f i.
Proof.
  intros Hi Hz.
  assert (Hdot : forall f l, (forall x, In x l -> x = 0) -> dot f l = 0).
  { clear. intros f l; revert f; induction l as [|a l IH]; intros f H; simpl; [reflexivity|].
    rewrite (H a) by (left; reflexivity). rewrite IH; [ring|]. intros; apply H; right; assumption. }
  revert i f Hi; induction l as [|a l IH]; intros i f Hi; simpl in Hi; [lia|].
  destruct i as [|i]; simpl.
  - eexists; split; [reflexivity|]; split; [reflexivity|]. simpl.
    rewrite Hdot; [ring|]. intros; apply Hz; right; assumption.
  - destruct (IH (fun x H => Hz x (or_intror H)) i (fun k => f (S k))) as (l' & E & L & Hd); [lia|].
    rewrite E; simpl. eexists; split; [reflexivity|]. split; [simpl; lia|].
    simpl. rewrite Hd, (Hz a) by (left; reflexivity). ring.
Qed.

Lemma get_at_spec i l : (i < length l)%nat -> get_at i l = Ret (nth i l 0).
Proof.
  revert i; induction l as [|a l IH]; intros i Hi; simpl in Hi; [lia|].
  destruct i; simpl; [reflexivity|apply IH; lia].
Qed.

Lemma dot_ext f f' l : (forall m, (m < length l)%nat -> f m = f' m) -> dot f l = dot f' l.
Proof.
  revert f f'; induction l as [|a l IH]; intros f f' H; simpl; [reflexivity|].
  rewrite (H O) by (simpl; lia). rewrite (IH (fun k => f (S k)) (fun k => f' (S k))); [reflexivity|].
  intros; apply H; simpl; lia.
Qed.

Lemma dot_change f f' l n :
  (n < length l)%nat -> (forall m, m <> n -> f m = f' m) ->
  dot f l = dot f' l + nth n l 0 * (f n - f' n).
Proof.
  revert f f' n; induction l as [|a l IH]; intros f f' n Hn H; simpl in Hn; [lia|].
  destruct n as [|n]; simpl.
  - rewrite (dot_ext (fun k => f (S k)) (fun k => f' (S k))) by (intros; apply H; lia). ring.
  - rewrite (IH (fun k => f (S k)) (fun k => f' (S k)) n) by (try lia; intros; apply H; lia).
    rewrite (H O) by lia. ring.
Qed.

Definition indic (n : nat) : nat -> R := fun m => if Nat.eq_dec m n then 1 else 0.

Lemma dot_indic n l : (n < length l)%nat -> dot (indic n) l = nth n l 0.
Proof.
  intros Hn. rewrite (dot_change (indic n) (fun _ => 0) l n Hn).
  - assert (E : dot (fun _ => 0) l = 0).
    { clear. induction l; simpl; [reflexivity|]. rewrite IHl. ring. }
    rewrite E. unfold indic. destruct (Nat.eq_dec n n); [ring|lia].
  - intros m Hm. unfold indic. destruct (Nat.eq_dec m n); [lia|reflexivity].
Qed.

(** ** The backward sweep *)

(** a vertex at position [i] refers to earlier vertices, or to itself with a
    zero partial *)
Definition vok (i : nat) (v : vertex) : Prop :=
  ((par0 v < i)%nat \/ (par0 v = i /\ part0 v = 0)) /\
  ((par1 v < i)%nat \/ (par1 v = i /\ part1 v = 0)).
Definition tape_wf (g : tape) : Prop := forall i v, nth_error g i = Some v -> vok i v.

(** [D] lists the derivatives of every vertex along the seed [s] *)
Definition tape_ok (s : nat -> R) (g : tape) (D : list R) : Prop :=
  length D = length g /\ tape_wf g /\
  forall i v, nth_error g i = Some v ->
    nth i D 0 = s i + part0 v * nth (par0 v) D 0 + part1 v * nth (par1 v) D 0.

Definition weight (s : nat -> R) (D : list R) (n m : nat) : R :=
  if lt_dec m n then nth m D 0 else s m.

Lemma weight_vok s D i (p : R) q :
  ((q < i)%nat \/ (q = i /\ p = 0)) -> p * weight s D i q = p * nth q D 0.
Proof.
  intros [H|[-> ->]]; [|ring]. unfold weight. destruct (lt_dec q i); [reflexivity|lia].
Qed.

Lemma back_loop_spec s g D : tape_ok s g D ->
  forall n adj, (n <= length g)%nat -> length adj = length g ->
  exists adj', back_loop n g adj = Ret adj' /\ length adj' = length g /\
               dot s adj' = dot (weight s D n) adj.
Proof.
  intros (HL & Hwf & HD) n. induction n as [|n IH]; intros adj Hn Hlen; simpl.
  - exists adj. split; [reflexivity|]. split; [assumption|].
    apply dot_ext. intros m _. unfold weight. destruct (lt_dec m 0); [lia|reflexivity].
  - destruct (nth_error g n) as [v|] eqn:Hv.
    2:{ apply nth_error_None in Hv. lia. }
    simpl. unfold back_step.
    rewrite get_at_spec by lia. simpl.
    destruct (Hwf _ _ Hv) as [H0 H1].
    destruct (add_at_spec (par0 v) (part0 v * nth n adj 0) adj (weight s D n)) as (a1 & E1 & L1 & D1);
      [destruct H0 as [?|[? ?]]; lia|].
    rewrite E1; simpl.
    destruct (add_at_spec (par1 v) (part1 v * nth n adj 0) a1 (weight s D n)) as (a2 & E2 & L2 & D2);
      [destruct H1 as [?|[? ?]]; lia|].
    rewrite E2; simpl.
    destruct (IH a2) as (adj' & E & L & Hd); [lia|lia|].
    exists adj'. split; [assumption|]. split; [assumption|].
    rewrite Hd, D2, D1.
    rewrite (dot_change (weight s D (S n)) (weight s D n) adj n).
    + replace (weight s D (S n) n) with (nth n D 0)
        by (unfold weight; destruct (lt_dec n (S n)); [reflexivity|lia]).
      replace (weight s D n n) with (s n)
        by (unfold weight; destruct (lt_dec n n); [lia|reflexivity]).
      rewrite (HD _ _ Hv).
      pose proof (weight_vok s D n _ _ H0) as W0. pose proof (weight_vok s D n _ _ H1) as W1.
      replace (part0 v * nth n adj 0 * weight s D n (par0 v))
        with (nth n adj 0 * (part0 v * weight s D n (par0 v))) by ring.
      replace (part1 v * nth n adj 0 * weight s D n (par1 v))
        with (nth n adj 0 * (part1 v * weight s D n (par1 v))) by ring.
      rewrite W0, W1. ring.
    + lia.
    + intros m Hm. unfold weight. destruct (lt_dec m (S n)), (lt_dec m n); try lia; reflexivity.
Qed.

Lemma accumulate_spec s g D out : tape_ok s g D -> (index out < length g)%nat ->
  exists adj, accumulate g out = Ret adj /\ length adj = length g /\
              dot s adj = nth (index out) D 0.
Proof.
  intros Hok Hi. unfold accumulate.
  destruct (set_at_spec (index out) 1 (repeat 0 (length g)) (weight s D (length g)))
    as (a & E & L & Hd).
  - rewrite repeat_length; assumption.
  - intros x H. apply repeat_spec in H. assumption.
  - rewrite E; simpl. rewrite repeat_length in L.
    destruct (back_loop_spec s g D Hok (length g) a) as (adj & E' & L' & Hd'); [lia|lia|].
    exists adj. split; [assumption|]. split; [assumption|].
    rewrite Hd', Hd. unfold weight. destruct (lt_dec (index out) (length g)); [ring|lia].
Qed.

Lemma accumulate_total g out : tape_wf g -> (index out < length g)%nat ->
  exists adj, accumulate g out = Ret adj /\ length adj = length g.
Proof.
  intros Hwf Hi.
  destruct (accumulate_spec (fun _ => 0) g (repeat 0 (length g)) out) as (adj & E & L & _).
  - split; [apply repeat_length|]. split; [assumption|]. intros i v _.
    rewrite !nth_repeat. ring.
  - assumption.
  - exists adj; split; assumption.
Qed.

(** ** Structure of the tapes built by the operations *)

(** [g'] extends [g] with well-placed vertices and [v] is inside [g'] *)
Definition built (g g' : tape) (v : var) : Prop :=
  (exists e, g' = g ++ e) /\ (tape_wf g -> tape_wf g') /\ (index v < length g')%nat.
Definition fresh_var (g g' : tape) (v : var) : Prop :=
  (length g < length g')%nat /\ index v = (length g' - 1)%nat.

Lemma wf_snoc g v : tape_wf g -> vok (length g) v -> tape_wf (g ++ [v]).
Proof.
  intros Hg Hv i w Hi. destruct (lt_dec i (length g)) as [H|H].
  - rewrite nth_error_app1 in Hi by assumption. apply Hg; assumption.
  - rewrite nth_error_app2 in Hi by lia.
    destruct (i - length g)%nat as [|m] eqn:E; simpl in Hi.
    + injection Hi as <-. replace i with (length g) by lia. assumption.
    + destruct m; discriminate.
Qed.

Lemma mk1_built g x val p : (index x < length g)%nat ->
  built g (fst (mk1 g x val p)) (snd (mk1 g x val p)) /\
  fresh_var g (fst (mk1 g x val p)) (snd (mk1 g x val p)) /\ value (snd (mk1 g x val p)) = val.
Proof.
  intros Hx. unfold mk1, push_unary, built, fresh_var; simpl.
  rewrite app_length; simpl. split; [split; [eexists; reflexivity|split; [|lia]]|split; [lia|reflexivity]].
  intros Hg. apply wf_snoc; [assumption|]. split; simpl; [left; lia|right; split; reflexivity].
Qed.

Lemma mk2_built g a b val p q : (a < length g)%nat -> (b < length g)%nat ->
  built g (fst (mk2 g a b val p q)) (snd (mk2 g a b val p q)) /\
  fresh_var g (fst (mk2 g a b val p q)) (snd (mk2 g a b val p q)) /\
  value (snd (mk2 g a b val p q)) = val.
Proof.
  intros Ha Hb. unfold mk2, push_binary, built, fresh_var; simpl.
  rewrite app_length; simpl. split; [split; [eexists; reflexivity|split; [|lia]]|split; [lia|reflexivity]].
  intros Hg. apply wf_snoc; [assumption|]. split; simpl; left; lia.
Qed.

Lemma built_trans g g1 g2 v1 v2 : built g g1 v1 -> built g1 g2 v2 -> built g g2 v2.
Proof.
  intros ([e1 ->] & W1 & _) ([e2 ->] & W2 & I2). split; [|split].
  - exists (e1 ++ e2). rewrite app_assoc. reflexivity.
  - auto.
  - assumption.
Qed.

Lemma built_length g g' v : built g g' v -> (length g <= length g')%nat.
Proof. intros ([e ->] & _ & _). rewrite app_length. lia. Qed.

(** what one operation yields: a good extension and the right value *)
Definition yields (g : tape) (r : tape * var) (val : R) : Prop :=
  built g (fst r) (snd r) /\ fresh_var g (fst r) (snd r) /\ value (snd r) = val.

Lemma yields_trans g r1 r2 v1 v2 :
  yields g r1 v1 -> yields (fst r1) r2 v2 -> yields g r2 v2.
Proof.
  intros (B1 & [F1 _] & _) (B2 & [F2 I2] & V2). split; [eapply built_trans; eassumption|].
  split; [|assumption]. split; [lia|assumption].
Qed.

Lemma un_yields o g x : (index x < length g)%nat ->
  yields g (un_v o g x) (sem_un o (value x)).
Proof.
  intros Hx. destruct o; simpl; try (apply mk1_built; assumption).
  unfold neg_v, mul_vf. replace (- value x) with (value x * -1) by ring.
  apply mk2_built; assumption.
Qed.

Lemma bin_yields o g x y : (index x < length g)%nat -> (index y < length g)%nat ->
  yields g (bin_v o g x y) (sem_bin o (value x) (value y)).
Proof.
  intros Hx Hy. destruct o; simpl; try (apply mk2_built; assumption).
  - unfold sub_vv. pose proof (un_yields Neg g y Hy) as H. simpl in H.
    destruct (neg_v g y) as [g1 z]. eapply yields_trans; [exact H|]. simpl.
    destruct H as (B & _ & V). simpl in *. unfold add_vv.
    replace (value x - value y) with (value x + value z) by (rewrite V; ring).
    apply mk2_built; [|apply B]. pose proof (built_length _ _ _ B). lia.
  - unfold div_vv. pose proof (un_yields Recip g y Hy) as H. simpl in H.
    destruct (recip_v g y) as [g1 z]. eapply yields_trans; [exact H|]. simpl.
    destruct H as (B & _ & V). simpl in *. unfold mul_vv, Rdiv. rewrite <- V.
    apply mk2_built; [|apply B]. pose proof (built_length _ _ _ B). lia.
Qed.

Lemma vf_yields o g x c : (index x < length g)%nat ->
  yields g (vf_v o g x c) (sem_bin (vf_bin o) (value x) c).
Proof.
  intros Hx. destruct o; simpl; apply mk2_built; assumption.
Qed.

Lemma fv_yields o g c y : (index y < length g)%nat ->
  yields g (fv_v o g c y) (sem_bin o c (value y)).
Proof.
  intros Hy. destruct o; simpl; try (apply mk2_built; assumption).
  - rewrite Rplus_comm. apply mk2_built; assumption.
  - rewrite Rmult_comm. apply mk2_built; assumption.
Qed.

Lemma reduce_built op (f : R -> R -> R) :
  (forall g x y, (index x < length g)%nat -> (index y < length g)%nat ->
     yields g (op g x y) (f (value x) (value y))) ->
  forall l g acc, (index acc < length g)%nat ->
    (forall v, In v l -> (index v < length g)%nat) ->
    let r := reduce_from op g acc l in
    built g (fst r) (snd r) /\ (l <> [] -> fresh_var g (fst r) (snd r)) /\
    value (snd r) = fold_left f (map value l) (value acc).
Proof.
  intros Hop l. induction l as [|x l IH]; intros g acc Ha Hl; simpl.
  - split; [|split; [congruence|reflexivity]]. split; [exists []; symmetry; apply app_nil_r|].
    split; [auto|assumption].
  - destruct (Hop g acc x Ha (Hl x (or_introl eq_refl))) as (B & F & V).
    destruct (op g acc x) as [g1 z]; simpl in *.
    pose proof (built_length _ _ _ B).
    destruct (IH g1 z) as (B2 & F2 & V2).
    + apply B.
    + intros v Hv. specialize (Hl v (or_intror Hv)). lia.
    + split; [eapply built_trans; eassumption|]. split.
      * intros _. destruct l as [|y l]; [exact F|].
        destruct F2 as [F2 I2]; [discriminate|]. destruct F as [F _]. split; [lia|assumption].
      * rewrite V2, V. reflexivity.
Qed.

Lemma fold_left_assoc (f : R -> R -> R) (e : R) :
  (forall a b c, f (f a b) c = f a (f b c)) -> (forall a, f a e = a) ->
  forall l a, fold_left f l a = f a (fold_right f e l).
Proof.
  intros Hassoc Hid l. induction l as [|x l IH]; intros a; simpl; [symmetry; apply Hid|].
  rewrite IH, Hassoc. reflexivity.
Qed.

Lemma lookups_spec vs l : (forall a, In a l -> (a < length vs)%nat) ->
  exists xs, lookups vs l = Ret xs /\ length xs = length l /\
    (forall d, xs = map (fun a => nth a vs d) l).
Proof.
  induction l as [|a l IH]; intros H; simpl.
  - exists []. repeat split; reflexivity.
  - destruct (nth_error vs a) as [v|] eqn:E.
    2:{ apply nth_error_None in E. specialize (H a (or_introl eq_refl)). lia. }
    simpl. destruct IH as (xs & E2 & L & M); [intros; apply H; right; assumption|].
    rewrite E2. simpl. exists (v :: xs). split; [reflexivity|]. split; [simpl; lia|].
    intros d. rewrite <- M. f_equal. symmetry. apply nth_error_nth. assumption.
Qed.

Lemma in_lookups vs l xs : lookups vs l = Ret xs -> forall v, In v xs -> In v vs.
Proof.
  revert xs; induction l as [|a l IH]; intros xs H v Hv; simpl in H.
  - injection H as <-. destruct Hv.
  - destruct (nth_error vs a) as [w|] eqn:E; simpl in H; [|discriminate].
    destruct (lookups vs l) as [ys| |] eqn:E2; simpl in H; try discriminate.
    injection H as <-. destruct Hv as [<-|Hv].
    + eapply nth_error_In; eassumption.
    + eapply IH; eauto.
Qed.

Definition vars_in (g : tape) (vs : list var) : Prop :=
  forall v, In v vs -> (index v < length g)%nat.

Lemma at_value vs a v : nth_error vs a = Some v -> at_ (map value vs) a = value v.
Proof.
  intros H. unfold at_. apply nth_error_nth. rewrite nth_error_map, H. reflexivity.
Qed.

Lemma exec_instr_spec g vs i :
  vars_in g vs -> nonempty_fold i -> (forall a, In a (refs i) -> (a < length vs)%nat) ->
  exists g' v, exec_instr (g, vs) i = Ret (g', vs ++ [v]) /\ built g g' v /\
    (~ aliases i -> fresh_var g g' v) /\ value v = sem_instr (map value vs) i.
Proof.
  intros Hvs Hne Hrefs.
  assert (Hlk : forall a, In a (refs i) -> exists x, nth_error vs a = Some x /\ (index x < length g)%nat).
  { intros a Ha. specialize (Hrefs a Ha). destruct (nth_error vs a) as [x|] eqn:E.
    - exists x; split; [reflexivity|]. apply Hvs. eapply nth_error_In; eassumption.
    - apply nth_error_None in E. lia. }
  destruct i as [x|o a|o a b|o a c|o c b|a n|l|l]; simpl in *.
  - do 2 eexists. split; [reflexivity|]. split; [|split; [intros _|reflexivity]].
    + unfold built; simpl. split; [eexists; reflexivity|]. rewrite app_length; simpl. split; [|lia].
      intros Hg. apply wf_snoc; [assumption|]. split; simpl; right; split; reflexivity.
    + unfold fresh_var; simpl. rewrite app_length; simpl. lia.
  - destruct (Hlk a (or_introl eq_refl)) as (x & E & I). rewrite E; simpl.
    destruct (un_yields o g x I) as (B & F & V). destruct (un_v o g x) as [g' v].
    do 2 eexists. split; [reflexivity|]. simpl in *. rewrite (at_value _ _ _ E). auto.
  - destruct (Hlk a (or_introl eq_refl)) as (x & E & I).
    destruct (Hlk b (or_intror (or_introl eq_refl))) as (y & E2 & I2). rewrite E, E2; simpl.
    destruct (bin_yields o g x y I I2) as (B & F & V). destruct (bin_v o g x y) as [g' v].
    do 2 eexists. split; [reflexivity|]. simpl in *.
    rewrite (at_value _ _ _ E), (at_value _ _ _ E2). auto.
  - destruct (Hlk a (or_introl eq_refl)) as (x & E & I). rewrite E; simpl.
    destruct (vf_yields o g x c I) as (B & F & V). destruct (vf_v o g x c) as [g' v].
    do 2 eexists. split; [reflexivity|]. simpl in *. rewrite (at_value _ _ _ E). auto.
  - destruct (Hlk b (or_introl eq_refl)) as (x & E & I). rewrite E; simpl.
    destruct (fv_yields o g c x I) as (B & F & V). destruct (fv_v o g c x) as [g' v].
    do 2 eexists. split; [reflexivity|]. simpl in *. rewrite (at_value _ _ _ E). auto.
  - destruct (Hlk a (or_introl eq_refl)) as (x & E & I). rewrite E; simpl.
    destruct (mk2_built g (index x) (index x) (powerRZ (value x) n)
               (IZR n * powerRZ (value x) (n - 1)) 0 I I) as (B & F & V).
    do 2 eexists. split; [reflexivity|]. simpl in *. rewrite (at_value _ _ _ E). auto.
  - destruct (lookups_spec vs l Hrefs) as (xs & E & L & M). rewrite E; simpl.
    pose proof (in_lookups _ _ _ E) as Hin.
    destruct xs as [|x xs]; [destruct l; [congruence|simpl in L; lia]|]. simpl.
    destruct (reduce_built add_vv Rplus (fun g x y => bin_yields Add g x y) xs g x) as (B & F & V).
    + apply Hvs, Hin; left; reflexivity.
    + intros v Hv. apply Hvs, Hin; right; assumption.
    + destruct (reduce_from add_vv g x xs) as [g' v]. do 2 eexists. split; [reflexivity|].
      split; [exact B|]. simpl in *. split.
      * intros Ha. apply F. intros ->. apply Ha. destruct l as [|? [|]]; simpl in L; try lia; exact I.
      * rewrite V, (fold_left_assoc Rplus 0) by (intros; ring).
        change (fold_right Rplus 0 (map value (x :: xs)) = fold_right Rplus 0 (map (at_ (map value vs)) l)).
        f_equal. rewrite (M (Var 0 0)), map_map. apply map_ext. intros a.
        unfold at_. symmetry. change 0 with (value (Var 0 0)) at 1. apply map_nth.
  - destruct (lookups_spec vs l Hrefs) as (xs & E & L & M). rewrite E; simpl.
    pose proof (in_lookups _ _ _ E) as Hin.
    destruct xs as [|x xs]; [destruct l; [congruence|simpl in L; lia]|]. simpl.
    destruct (reduce_built mul_vv Rmult (fun g x y => bin_yields Mul g x y) xs g x) as (B & F & V).
    + apply Hvs, Hin; left; reflexivity.
    + intros v Hv. apply Hvs, Hin; right; assumption.
    + destruct (reduce_from mul_vv g x xs) as [g' v]. do 2 eexists. split; [reflexivity|].
      split; [exact B|]. simpl in *. split.
      * intros Ha. apply F. intros ->. apply Ha. destruct l as [|? [|]]; simpl in L; try lia; exact I.
      * rewrite V, (fold_left_assoc Rmult 1) by (intros; ring).
        change (fold_right Rmult 1 (map value (x :: xs)) = fold_right Rmult 1 (map (at_ (map value vs)) l)).
        f_equal. rewrite (M (Var 0 0)), map_map. apply map_ext. intros a.
        unfold at_. symmetry. change 0 with (value (Var 0 0)) at 1. apply map_nth.
Qed.

(** ** Whole programs *)

Definition sem_from (env : list R) (p : list instr) : list R :=
  fold_left (fun env i => env ++ [sem_instr env i]) p env.

Definition wf_from (n : nat) (p : list instr) : Prop :=
  forall k i, nth_error p k = Some i ->
    nonempty_fold i /\ forall a, In a (refs i) -> (a < n + k)%nat.

Lemma wf_from_cons n i p : wf_from n (i :: p) ->
  (nonempty_fold i /\ forall a, In a (refs i) -> (a < n)%nat) /\ wf_from (S n) p.
Proof.
  intros H. split.
  - destruct (H O i eq_refl) as [A B]. split; [assumption|]. intros a Ha. specialize (B a Ha). lia.
  - intros k j Hk. destruct (H (S k) j Hk) as [A B]. split; [assumption|].
    intros a Ha. specialize (B a Ha). lia.
Qed.

Lemma exec_spec p : forall g vs,
  tape_wf g -> vars_in g vs -> wf_from (length vs) p ->
  exists g' vs', exec (g, vs) p = Ret (g', vs') /\ tape_wf g' /\ vars_in g' vs' /\
    (length g <= length g')%nat /\ length vs' = (length vs + length p)%nat /\
    map value vs' = sem_from (map value vs) p /\ firstn (length vs) vs' = vs.
Proof.
  induction p as [|i p IH]; intros g vs Hg Hvs Hwf; cbn [exec].
  - do 2 eexists. split; [reflexivity|]. split; [assumption|]. split; [assumption|].
    split; [lia|]. split; [simpl; lia|]. split; [reflexivity|apply firstn_all].
  - apply wf_from_cons in Hwf as [[Hne Hr] Hwf].
    destruct (exec_instr_spec g vs i Hvs Hne Hr) as (g1 & v & E & B & _ & V).
    rewrite E; cbn [bind].
    pose proof (built_length _ _ _ B) as HL.
    destruct (IH g1 (vs ++ [v])) as (g2 & vs2 & E2 & W2 & I2 & L2 & N2 & M2 & P2).
    + apply B. assumption.
    + intros w Hw. apply in_app_iff in Hw as [Hw|[<-|[]]]; [specialize (Hvs w Hw); lia|apply B].
    + rewrite app_length; simpl. rewrite Nat.add_1_r. assumption.
    + exists g2, vs2. split; [assumption|]. split; [assumption|]. split; [assumption|].
      rewrite app_length in N2; simpl in N2. split; [lia|]. split; [simpl; lia|]. split.
      * rewrite M2. unfold sem_from. simpl. rewrite map_app. simpl. rewrite V. reflexivity.
      * assert (length vs < length vs2)%nat by lia.
        assert (Q : firstn (length vs) (firstn (length (vs ++ [v])) vs2) = firstn (length vs) vs2).
        { rewrite firstn_firstn. f_equal. rewrite app_length; simpl. lia. }
        rewrite <- Q, P2. rewrite firstn_app, Nat.sub_diag, firstn_all. simpl. apply app_nil_r.
Qed.

Lemma exec_app p q st : exec st (p ++ q) = bind (exec st p) (fun st' => exec st' q).
Proof.
  revert st; induction p as [|i p IH]; intros st; cbn [exec app]; [reflexivity|].
  destruct (exec_instr st i) as [st'| |]; simpl; [apply IH|reflexivity|reflexivity].
Qed.

(** ** Derivatives along one input *)

Section Along.
Variable s : nat -> R.
Variable x0 : R.

Definition fresh_seed (g : tape) : Prop := forall i, (length g <= i)%nat -> s i = 0.

Definition var_ok (W : R -> R) (D : list R) (v : var) : Prop :=
  (index v < length D)%nat /\ W x0 = value v /\ is_derive W x0 (nth (index v) D 0).

Definition step_ok (g : tape) (D : list R) (r : tape * var) (W : R -> R) : Prop :=
  exists E, tape_ok s (fst r) (D ++ E) /\ fresh_seed (fst r) /\ var_ok W (D ++ E) (snd r).

Lemma var_ok_weaken W D E v : var_ok W D v -> var_ok W (D ++ E) v.
Proof.
  intros (I & V & H). split; [rewrite app_length; lia|]. split; [assumption|].
  rewrite app_nth1 by assumption. assumption.
Qed.

Lemma tape_ok_snoc g D v :
  tape_ok s g D -> fresh_seed g -> vok (length g) v ->
  tape_ok s (g ++ [v])
    (D ++ [part0 v * nth (par0 v) (D ++ [0]) 0 + part1 v * nth (par1 v) (D ++ [0]) 0]).
Proof.
  intros (HL & Hwf & HD) Hs Hv.
  split; [rewrite !app_length; simpl; lia|]. split; [apply wf_snoc; assumption|].
  intros i w Hi. destruct (lt_dec i (length g)) as [H|H].
  - rewrite nth_error_app1 in Hi by assumption.
    destruct (Hwf _ _ Hi) as [H0 H1].
    assert (Hb0 : (par0 w < length D)%nat) by (destruct H0 as [?|[? ?]]; lia).
    assert (Hb1 : (par1 w < length D)%nat) by (destruct H1 as [?|[? ?]]; lia).
    rewrite !app_nth1 by lia. apply HD; assumption.
  - rewrite nth_error_app2 in Hi by lia.
    destruct (i - length g)%nat as [|m] eqn:E; simpl in Hi; [|destruct m; discriminate].
    injection Hi as <-. replace i with (length g) by lia.
    rewrite (Hs (length g)) by lia.
    rewrite (app_nth2 D) by lia. rewrite HL, Nat.sub_diag. simpl nth at 1.
    destruct Hv as [[H0|[H0 H0']] [H1|[H1 H1']]].
    + rewrite !app_nth1 by lia. ring.
    + rewrite H1'. rewrite !(app_nth1 D _ _ (n:=par0 v)) by lia. ring.
    + rewrite H0'. rewrite !(app_nth1 D _ _ (n:=par1 v)) by lia. ring.
    + rewrite H0', H1'. ring.
Qed.

Lemma fresh_seed_snoc g v : fresh_seed g -> fresh_seed (g ++ [v]).
Proof. intros H i Hi. apply H. rewrite app_length in Hi. simpl in Hi. lia. Qed.

Lemma mk2_ok g D a b val p q W :
  tape_ok s g D -> fresh_seed g -> (a < length g)%nat -> (b < length g)%nat ->
  W x0 = val -> is_derive W x0 (p * nth a D 0 + q * nth b D 0) ->
  step_ok g D (mk2 g a b val p q) W.
Proof.
  intros Hok Hs Ha Hb HV Hd. pose proof (proj1 Hok) as HL.
  eexists. split; [|split].
  - apply (tape_ok_snoc g D (Vertex p q a b)); [assumption|assumption|]. split; left; simpl; lia.
  - apply fresh_seed_snoc; assumption.
  - simpl. split; [rewrite app_length; simpl; lia|]. split; [assumption|]. simpl.
    rewrite app_nth2 by lia. rewrite HL, Nat.sub_diag. simpl.
    rewrite !app_nth1 by lia. assumption.
Qed.

Lemma mk1_ok g D x val p W :
  tape_ok s g D -> fresh_seed g -> (index x < length g)%nat ->
  W x0 = val -> is_derive W x0 (p * nth (index x) D 0) ->
  step_ok g D (mk1 g x val p) W.
Proof.
  intros Hok Hs Ha HV Hd. pose proof (proj1 Hok) as HL.
  eexists. split; [|split].
  - apply (tape_ok_snoc g D (Vertex p 0 (index x) (length g))); [assumption|assumption|].
    split; simpl; [left; lia|right; split; reflexivity].
  - apply fresh_seed_snoc; assumption.
  - simpl. split; [rewrite app_length; simpl; lia|]. split; [assumption|]. simpl.
    rewrite app_nth2 by lia. rewrite HL, Nat.sub_diag. simpl.
    rewrite !app_nth1 by lia.
    replace (p * nth (index x) D 0 + 0 * _) with (p * nth (index x) D 0) by ring. assumption.
Qed.

Lemma step_trans g D r1 W1 r2 W2 :
  step_ok g D r1 W1 ->
  (forall D1, tape_ok s (fst r1) (D ++ D1) -> fresh_seed (fst r1) ->
     var_ok W1 (D ++ D1) (snd r1) -> step_ok (fst r1) (D ++ D1) r2 W2) ->
  step_ok g D r2 W2.
Proof.
  intros (E & A & B & C) H. destruct (H E A B C) as (E2 & A2 & B2 & C2).
  exists (E ++ E2). rewrite app_assoc. split; [assumption|]. split; assumption.
Qed.

Lemma derive_comp1 (F V : R -> R) dV p :
  is_derive V x0 dV -> is_derive F (V x0) p -> is_derive (fun t => F (V t)) x0 (p * dV).
Proof.
  intros HV HF. rewrite Rmult_comm.
  apply (is_derive_comp F V x0 p dV HF HV).
Qed.

(** derivative of a primitive with one tracked argument *)
Lemma mk1_fun_ok g D x val p (F V : R -> R) :
  tape_ok s g D -> fresh_seed g -> var_ok V D x ->
  F (value x) = val -> is_derive F (value x) p ->
  step_ok g D (mk1 g x val p) (fun t => F (V t)).
Proof.
  intros Hok Hs (I & E & HV) Hval HF. pose proof (proj1 Hok).
  apply mk1_ok; try assumption; try lia; [rewrite E; assumption|].
  apply derive_comp1; [assumption|]. rewrite E. assumption.
Qed.

Lemma mk2_fun_ok g D x val p q (F V : R -> R) :
  tape_ok s g D -> fresh_seed g -> var_ok V D x ->
  F (value x) = val -> is_derive F (value x) (p + q) ->
  step_ok g D (mk2 g (index x) (index x) val p q) (fun t => F (V t)).
Proof.
  intros Hok Hs (I & E & HV) Hval HF. pose proof (proj1 Hok).
  apply mk2_ok; try assumption; try lia; [rewrite E; assumption|].
  rewrite <- Rmult_plus_distr_r. apply derive_comp1; [assumption|]. rewrite E. assumption.
Qed.

End Along.

(** ** Derivatives of the primitives *)

Lemma is_derive_eq (f : R -> R) (x a b : R) : is_derive f x a -> a = b -> is_derive f x b.
Proof. intros H <-. exact H. Qed.

Lemma is_derive_lim f x l : derivable_pt_lim f x l -> is_derive f x l.
Proof. intros H. apply is_derive_Reals. exact H. Qed.

Lemma Rsqr_pow2' x : Rsqr x = x ^ 2.
Proof. unfold Rsqr. ring. Qed.

Lemma d_abs x : x <> 0 -> is_derive Rabs x (signum x).
Proof.
  intros Hx. eapply is_derive_eq; [apply is_derive_Rabs; [apply is_derive_id|exact Hx]|].
  unfold signum. change (@one R_AbsRing) with 1.
  destruct (Rlt_dec x 0) as [H|H].
  - rewrite (sign_eq_m1 x H). apply Rmult_1_r.
  - rewrite (sign_eq_1 x) by lra. apply Rmult_1_r.
Qed.

Lemma d_acos x : -1 < x < 1 -> is_derive acos x (- / sqrt (1 - x ^ 2)).
Proof.
  intros H. apply is_derive_lim. replace (x ^ 2) with (Rsqr x) by apply Rsqr_pow2'.
  replace (- / sqrt (1 - Rsqr x)) with (-1 / sqrt (1 - Rsqr x)) by (unfold Rdiv; ring).
  rewrite <- (derive_pt_acos x H). apply derive_pt_eq_1 with (derivable_pt_acos x H). reflexivity.
Qed.

Lemma d_asin x : -1 < x < 1 -> is_derive asin x (/ sqrt (1 - x ^ 2)).
Proof.
  intros H. apply is_derive_lim. replace (x ^ 2) with (Rsqr x) by apply Rsqr_pow2'.
  replace (/ sqrt (1 - Rsqr x)) with (1 / sqrt (1 - Rsqr x)) by (unfold Rdiv; ring).
  rewrite <- (derive_pt_asin x H). apply derive_pt_eq_1 with (derivable_pt_asin x H). reflexivity.
Qed.

Lemma d_atan x : is_derive atan x (/ (1 + x ^ 2)).
Proof.
  apply is_derive_lim. apply derivable_pt_lim_atan.
Qed.

Lemma d_acosh x : 1 < x -> is_derive acosh x (/ (sqrt (x - 1) * sqrt (x + 1))).
Proof.
  intros H. unfold acosh.
  assert (P : 0 < x ^ 2 - 1) by nra.
  pose proof (sqrt_lt_R0 _ P) as Q.
  auto_derive.
  - replace (x * (x * 1) + - (1)) with (x ^ 2 - 1) by ring. repeat split; try assumption; lra.
  - replace (x * (x * 1) + - (1)) with (x ^ 2 - 1) by ring.
    rewrite <- sqrt_mult by lra. replace ((x - 1) * (x + 1)) with (x ^ 2 - 1) by ring.
    field. split; lra.
Qed.

Lemma asinh_arg x : 0 < x + sqrt (x ^ 2 + 1).
Proof.
  assert (P : 0 < x ^ 2 + 1) by nra.
  pose proof (sqrt_lt_R0 _ P) as Q. pose proof (sqrt_sqrt (x ^ 2 + 1)) as S. nra.
Qed.

Lemma d_asinh x : is_derive asinh x (/ sqrt (1 + x ^ 2)).
Proof.
  unfold asinh. assert (P : 0 < x ^ 2 + 1) by nra.
  pose proof (sqrt_lt_R0 _ P) as Q. pose proof (asinh_arg x) as A.
  auto_derive.
  - replace (x * (x * 1) + 1) with (x ^ 2 + 1) by ring. repeat split; assumption.
  - replace (x * (x * 1) + 1) with (x ^ 2 + 1) by ring. replace (1 + x ^ 2) with (x ^ 2 + 1) by ring.
    field. split; lra.
Qed.

Lemma d_atanh x : -1 < x < 1 -> is_derive atanh x (/ (1 - x ^ 2)).
Proof.
  intros H. unfold atanh. auto_derive.
  - repeat split; [lra|]. apply Rdiv_lt_0_compat; lra.
  - field. repeat split; nra.
Qed.

Lemma d_rpower x a : 0 < x -> is_derive (fun t => Rpower t a) x (a * Rpower x (a - 1)).
Proof. intros H. apply is_derive_lim, derivable_pt_lim_power; assumption. Qed.

Lemma d_cbrt x : 0 < x -> is_derive cbrt x (/ (3 * Rpower x (2 / 3))).
Proof.
  intros H.
  apply (is_derive_ext_loc (fun t => Rpower t (1 / 3))).
  - exists (mkposreal x H). intros y Hy. unfold cbrt.
    assert (Hy' : Rabs (y - x) < x) by exact Hy. apply Rabs_def2 in Hy'.
    destruct (Rlt_dec 0 y); [reflexivity|lra].
  - eapply is_derive_eq; [apply d_rpower; assumption|].
    replace (1 / 3 - 1) with (- (2 / 3)) by field. rewrite Rpower_Ropp.
    field. apply Rgt_not_eq, exp_pos.
Qed.

Lemma d_cosh x : is_derive cosh x (sinh x).
Proof. unfold cosh, sinh. auto_derive; [trivial|field]. Qed.
Lemma d_sinh x : is_derive sinh x (cosh x).
Proof. unfold cosh, sinh. auto_derive; [trivial|field]. Qed.
Lemma cosh_pos x : 0 < cosh x.
Proof. unfold cosh. pose proof (exp_pos x). pose proof (exp_pos (- x)). lra. Qed.
Lemma d_tanh x : is_derive tanh x (/ cosh x ^ 2).
Proof.
  pose proof (cosh_pos x) as P. unfold tanh.
  eapply is_derive_eq;
    [apply (is_derive_div sinh cosh x _ _ (d_sinh x) (d_cosh x)); lra|].
  assert (E : cosh x * cosh x - sinh x * sinh x = 1).
  { unfold cosh, sinh. assert (EE : exp x * exp (- x) = 1)
      by (rewrite <- exp_plus, Rplus_opp_r; apply exp_0). nra. }
  replace (cosh x * cosh x - sinh x * sinh x) with 1 by lra.
  simpl. field. lra.
Qed.
Lemma d_tan x : cos x <> 0 -> is_derive tan x (/ cos x ^ 2).
Proof.
  intros H. unfold tan. auto_derive; [assumption|].
  pose proof (sin2_cos2 x) as E. unfold Rsqr in E.
  replace (1 * cos x * cos x - sin x * (1 * - sin x)) with (sin x * sin x + cos x * cos x) by ring.
  field_simplify_eq; [|assumption]. nra.
Qed.

Lemma d_exp2 x : is_derive (Rpower 2) x (Rpower 2 x * ln 2).
Proof. unfold Rpower. auto_derive; [trivial|]. ring. Qed.

Lemma d_powerRZ (n : Z) x : (0 < n)%Z \/ x <> 0 ->
  is_derive (fun t => powerRZ t n) x (IZR n * powerRZ x (n - 1)).
Proof.
  intros H. destruct n as [|n|n].
  - simpl. replace (0 * (x ^ Pos.to_nat 1)%R) with 0 by ring.
    replace (0 * _) with 0 by ring. apply (is_derive_const 1 x).
  - destruct (Pos2Nat.is_succ n) as [m Hm]. simpl powerRZ at 1. rewrite Hm.
    assert (E : powerRZ x (Z.pos n - 1) = x ^ m).
    { replace (Z.pos n - 1)%Z with (Z.of_nat m) by lia. symmetry. apply pow_powerRZ. }
    rewrite E. replace (IZR (Z.pos n)) with (INR (S m)) by (rewrite <- Hm, INR_IZR_INZ; f_equal; lia).
    eapply is_derive_eq; [apply is_derive_pow, is_derive_id|]. change (@one R_AbsRing) with 1.
    simpl pred. cbv beta. ring.
  - destruct H as [H|H]; [lia|]. destruct (Pos2Nat.is_succ n) as [m Hm].
    simpl powerRZ at 1.
    eapply is_derive_eq; [apply is_derive_inv; [apply is_derive_pow, is_derive_id|apply pow_nonzero; assumption]|].
    change (@one R_AbsRing) with 1.
    assert (E : powerRZ x (Z.neg n - 1) = / x ^ (S (Pos.to_nat n))).
    { replace (Z.neg n - 1)%Z with (- Z.of_nat (S (Pos.to_nat n)))%Z by lia.
      rewrite powerRZ_neg', <- pow_powerRZ. reflexivity. }
    rewrite E, Hm. simpl pred. cbv beta.
    replace (IZR (Z.neg n)) with (- INR (S m)) by (rewrite <- Hm, INR_IZR_INZ, <- opp_IZR; f_equal; lia).
    simpl pow. field. repeat split; try assumption; apply pow_nonzero; assumption.
Qed.

Lemma locally_lt (V W : R -> R) (x dV dW : R) :
  is_derive V x dV -> is_derive W x dW -> V x < W x -> locally x (fun t => V t < W t).
Proof.
  intros HV HW H.
  assert (C : continuous (fun t => W t - V t) x).
  { apply (ex_derive_continuous (K:=R_AbsRing) (V:=R_NormedModule)).
    eexists. apply (is_derive_minus (K:=R_AbsRing) (V:=R_NormedModule)); eassumption. }
  assert (P : 0 < W x - V x) by lra.
  specialize (C (fun y => 0 < y)). assert (Q : locally (W x - V x) (fun y => 0 < y)).
  { exists (mkposreal _ P). intros y Hy. assert (Hy' : Rabs (y - (W x - V x)) < W x - V x) by exact Hy.
    apply Rabs_def2 in Hy'. lra. }
  specialize (C Q). destruct C as [e He]. exists e. intros y Hy. specialize (He y Hy). simpl in He. lra.
Qed.

Lemma d_min2 (V W : R -> R) (x dV dW : R) :
  is_derive V x dV -> is_derive W x dW -> V x <> W x ->
  is_derive (fun t => Rmin (V t) (W t)) x
    (ind_lt (V x) (W x) * dV + ind_lt (W x) (V x) * dW).
Proof.
  intros HV HW H. unfold ind_lt.
  destruct (Rlt_dec (V x) (W x)) as [L|L]; destruct (Rlt_dec (W x) (V x)) as [L'|L']; try lra.
  - apply (is_derive_ext_loc V).
    + destruct (locally_lt V W x dV dW HV HW L) as [e He]. exists e. intros y Hy.
      specialize (He y Hy). symmetry. apply Rmin_left. simpl in He. lra.
    + eapply is_derive_eq; [exact HV|ring].
  - apply (is_derive_ext_loc W).
    + destruct (locally_lt W V x dW dV HW HV L') as [e He]. exists e. intros y Hy.
      specialize (He y Hy). symmetry. apply Rmin_right. simpl in He. lra.
    + eapply is_derive_eq; [exact HW|ring].
Qed.

Lemma d_max2 (V W : R -> R) (x dV dW : R) :
  is_derive V x dV -> is_derive W x dW -> V x <> W x ->
  is_derive (fun t => Rmax (V t) (W t)) x
    (ind_lt (W x) (V x) * dV + ind_lt (V x) (W x) * dW).
Proof.
  intros HV HW H. unfold ind_lt.
  destruct (Rlt_dec (V x) (W x)) as [L|L]; destruct (Rlt_dec (W x) (V x)) as [L'|L']; try lra.
  - apply (is_derive_ext_loc W).
    + destruct (locally_lt V W x dV dW HV HW L) as [e He]. exists e. intros y Hy.
      specialize (He y Hy). symmetry. apply Rmax_right. simpl in He. lra.
    + eapply is_derive_eq; [exact HW|ring].
  - apply (is_derive_ext_loc V).
    + destruct (locally_lt W V x dW dV HW HV L') as [e He]. exists e. intros y Hy.
      specialize (He y Hy). symmetry. apply Rmax_left. simpl in He. lra.
    + eapply is_derive_eq; [exact HV|ring].
Qed.

(** every correct unary primitive records its derivative *)
Definition un_partial (o : uop) (x : R) : R :=
  match o with
  | Neg => -1 | Abs => signum x | Acos => - / sqrt (1 - x ^ 2)
  | Acosh => / (sqrt (x - 1) * sqrt (x + 1))
  | Asin => / sqrt (1 - x ^ 2) | Asinh => / sqrt (1 + x ^ 2) | Atan => / (1 + x ^ 2)
  | Atanh => / (1 - x ^ 2) | Cbrt => / (3 * Rpower x (2 / 3)) | Cos => - sin x
  | Cosh => sinh x | Exp => exp x | Exp2 => Rpower 2 x * ln 2 | ExpM1 => exp x
  | Ln => / x | Ln1p => / (1 + x) | Log10 => / (x * ln 10) | Log2 => / (x * ln 2)
  | Recip => - / x ^ 2 | Sin => cos x | Sinh => cosh x | Sqrt => / (2 * sqrt x)
  | Tan => / cos x ^ 2 | Tanh => / cosh x ^ 2
  | Erf => 2 * exp (- (x ^ 2)) / sqrt PI | Erfc => - (2 * exp (- (x ^ 2))) / sqrt PI
  end.

Lemma un_partial_ok o x : dom_un o x -> is_derive (sem_un o) x (un_partial o x).
Proof.
  intros H; destruct o; simpl in H; unfold sem_un, un_partial.
  - auto_derive; [trivial|ring].
  - apply d_abs; assumption.
  - apply d_acos; assumption.
  - apply d_acosh; assumption.
  - apply d_asin; assumption.
  - apply d_asinh.
  - apply d_atan.
  - apply d_atanh; assumption.
  - apply d_cbrt; assumption.
  - auto_derive; [trivial|ring].
  - apply d_cosh.
  - auto_derive; [trivial|ring].
  - apply d_exp2.
  - auto_derive; [trivial|ring].
  - auto_derive; [assumption|field; lra].
  - auto_derive; [lra|field; lra].
  - auto_derive; [assumption|]. field. split; [|lra].
    apply Rgt_not_eq. rewrite <- ln_1. apply ln_increasing; lra.
  - auto_derive; [assumption|]. field. split; [|lra].
    apply Rgt_not_eq. rewrite <- ln_1. apply ln_increasing; lra.
  - auto_derive; [assumption|field; lra].
  - auto_derive; [trivial|ring].
  - apply d_sinh.
  - auto_derive; [assumption|]. field. apply Rgt_not_eq, sqrt_lt_R0; assumption.
  - apply d_tan; assumption.
  - apply d_tanh.
  - apply erf_derive.
  - eapply is_derive_eq; [apply erfc_derive|]. unfold Rdiv; ring.
Qed.
