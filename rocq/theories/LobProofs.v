(** Proofs about the limit order book model: refinement to [LobSpec]. *)
From stdpp Require Import base numbers list gmap sorting fin_maps.
From Verif Require Import Res LobModel LobSpec.
Open Scope N_scope.

Ltac nb :=
  repeat match goal with
  | H : (_ =? _) = true |- _ => apply N.eqb_eq in H
  | H : (_ =? _) = false |- _ => apply N.eqb_neq in H
  | H : (_ <? _) = true |- _ => apply N.ltb_lt in H
  | H : (_ <? _) = false |- _ => apply N.ltb_ge in H
  | H : (_ <=? _) = true |- _ => apply N.leb_le in H
  | H : (_ <=? _) = false |- _ => apply N.leb_gt in H
  end.

(** ** Priority queue facts *)

Lemma enqueue_perm s o q : enqueue s o q ≡ₚ o :: q.
Proof.
  induction q as [|x q IH]; simpl; [done|].
  case_match; [|done]. rewrite IH. constructor.
Qed.

Lemma fold_enqueue_perm s l acc :
  fold_left (fun q o => enqueue s o q) l acc ≡ₚ acc ++ l.
Proof.
  revert acc; induction l as [|o l IH]; intros acc; simpl.
  - by rewrite app_nil_r.
  - rewrite IH, enqueue_perm. by rewrite <-Permutation_middle.
Qed.

Lemma priority_perm s l : priority s l ≡ₚ l.
Proof. unfold priority. by rewrite fold_enqueue_perm. Qed.

Definition good (s : bool) (x y : order) : Prop :=
  at_least_as_good s (o_limit x) (o_limit y) = true.

Lemma good_trans s x y z : good s x y -> good s y z -> good s x z.
Proof.
  unfold good, at_least_as_good. destruct s; intros H1 H2; nb; apply N.leb_le; lia.
Qed.
Lemma not_good s x y :
  at_least_as_good s (o_limit x) (o_limit y) = false -> good s y x.
Proof.
  unfold good, at_least_as_good. destruct s; intros H; nb; apply N.leb_le; lia.
Qed.

Lemma enqueue_sorted s o q :
  StronglySorted (good s) q -> StronglySorted (good s) (enqueue s o q).
Proof.
  induction 1 as [|x q Hq IH Hx]; simpl.
  - repeat constructor.
  - case_match eqn:E.
    + constructor; [done|]. rewrite enqueue_perm. constructor; done.
    + apply not_good in E. constructor; [by constructor|].
      constructor; [done|]. eapply Forall_impl; [exact Hx|].
      intros y Hy. by eapply good_trans.
Qed.

Lemma fold_enqueue_sorted s l acc :
  StronglySorted (good s) acc ->
  StronglySorted (good s) (fold_left (fun q o => enqueue s o q) l acc).
Proof.
  revert acc; induction l as [|o l IH]; intros acc H; simpl; [done|].
  apply IH. by apply enqueue_sorted.
Qed.

Lemma priority_sorted s l : StronglySorted (good s) (priority s l).
Proof. apply fold_enqueue_sorted. constructor. Qed.

(** orders at price [p], in arrival order *)
Notation atp p := (filter (B := list order) (fun o => o_limit o = p)).

Lemma atp_all p l : Forall (fun o => o_limit o = p) l -> atp p l = l.
Proof.
  induction 1 as [|x l Hx Hl IH]; [done|]. rewrite filter_cons_True by done. by f_equal.
Qed.
Lemma atp_none p l : Forall (fun o => o_limit o <> p) l -> atp p l = [].
Proof.
  induction 1 as [|x l Hx Hl IH]; [done|]. by rewrite filter_cons_False.
Qed.

Lemma enqueue_atp s o q p :
  StronglySorted (good s) q ->
  atp p (enqueue s o q) = atp p q ++ atp p [o].
Proof.
  induction 1 as [|x q Hq IH Hx]; simpl; [done|].
  case_match eqn:E.
  - rewrite !filter_cons. destruct (decide (o_limit x = p)); rewrite IH; done.
  - rewrite (filter_cons _ o (x :: q)). rewrite (filter_cons _ o []).
    destruct (decide (o_limit o = p)) as [Hp|Hp]; [|by rewrite app_nil_r].
    assert (atp p (x :: q) = []) as ->; [|done].
    apply atp_none.
    assert (forall y, good s x y -> o_limit y <> p) as Hy.
    { intros y Hy. unfold good, at_least_as_good in *. destruct s; nb; lia. }
    constructor; [unfold good, at_least_as_good in *; destruct s; nb; lia|].
    eapply Forall_impl; [exact Hx|]. intros y ?. by apply Hy.
Qed.

Lemma fold_enqueue_atp s l acc p :
  StronglySorted (good s) acc ->
  atp p (fold_left (fun q o => enqueue s o q) l acc) = atp p acc ++ atp p l.
Proof.
  revert acc; induction l as [|o l IH]; intros acc H; simpl.
  - by rewrite app_nil_r.
  - rewrite IH by (by apply enqueue_sorted). rewrite enqueue_atp by done.
    rewrite <-app_assoc. f_equal. rewrite (filter_cons _ o l), (filter_cons _ o []).
    by destruct (decide _).
Qed.

Lemma priority_atp s l p : atp p (priority s l) = atp p l.
Proof. unfold priority. rewrite fold_enqueue_atp by constructor. done. Qed.

(** Two best-first queues that agree at every price are equal. *)
Lemma sorted_atp_eq s l1 l2 :
  StronglySorted (good s) l1 -> StronglySorted (good s) l2 ->
  (forall p, atp p l1 = atp p l2) -> l1 = l2.
Proof.
  intros H1; revert l2; induction H1 as [|x l1 Hl1 IH Hx]; intros l2 H2 Heq.
  - destruct l2 as [|y l2]; [done|].
    specialize (Heq (o_limit y)). rewrite filter_cons_True in Heq by done. done.
  - destruct H2 as [|y l2 Hl2 Hy].
    { specialize (Heq (o_limit x)). rewrite filter_cons_True in Heq by done. done. }
    assert (o_limit x = o_limit y) as Hxy.
    { pose proof (Heq (o_limit x)) as Hpx. rewrite filter_cons_True in Hpx by done.
      pose proof (Heq (o_limit y)) as Hpy. symmetry in Hpy.
      rewrite filter_cons_True in Hpy by done.
      assert (In x (atp (o_limit x) (y :: l2))) as Ix by (rewrite <-Hpx; by left).
      assert (In y (atp (o_limit y) (x :: l1))) as Iy by (rewrite <-Hpy; by left).
      apply elem_of_list_In, elem_of_list_filter in Ix as [_ Ix].
      apply elem_of_list_In, elem_of_list_filter in Iy as [_ Iy].
      apply elem_of_cons in Ix as [->|Ix]; [done|].
      apply elem_of_cons in Iy as [->|Iy]; [done|].
      rewrite Forall_forall in Hx, Hy.
      specialize (Hx _ Iy). specialize (Hy _ Ix).
      unfold good, at_least_as_good in *. destruct s; nb; lia. }
    assert (x = y) as <-.
    { specialize (Heq (o_limit x)). rewrite !filter_cons_True in Heq by done.
      by injection Heq. }
    f_equal. apply IH; [done|]. intros p. specialize (Heq p).
    rewrite !filter_cons in Heq. destruct (decide _); [by injection Heq|done].
Qed.

(** ** consume *)

Lemma consume_app left q1 q2 :
  consume left (q1 ++ q2) =
  let '(f1, r1, l1) := consume left q1 in
  let '(f2, r2, l2) := consume l1 q2 in
  (f1 ++ f2, r1 ++ r2, l2).
Proof.
  revert left; induction q1 as [|o q1 IH]; intros left; simpl.
  - destruct (consume left q2) as [[f2 r2] l2]. done.
  - destruct (left =? 0) eqn:E0.
    { destruct q2; simpl; done. }
    destruct (o_shares o <=? left) eqn:E1.
    + rewrite IH. destruct (consume (left - o_shares o) q1) as [[f1 r1] l1].
      destruct (consume l1 q2) as [[f2 r2] l2]. done.
    + destruct q2; simpl; rewrite ?app_nil_r; done.
Qed.

Lemma consume_left_le left q f r l :
  consume left q = (f, r, l) -> l <= left.
Proof.
  revert left f r l; induction q as [|o q IH]; intros left f r l; simpl.
  - intros [= <- <- <-]. lia.
  - destruct (left =? 0) eqn:E0; [intros [= <- <- <-]; nb; lia|].
    destruct (o_shares o <=? left) eqn:E1.
    + destruct (consume (left - o_shares o) q) as [[f' r'] l'] eqn:E.
      intros [= <- <- <-]. apply IH in E. lia.
    + intros [= <- <- <-]. lia.
Qed.

Lemma consume_rest_nil left q f r l :
  consume left q = (f, r, l) -> l <> 0 -> r = [].
Proof.
  revert left f r l; induction q as [|o q IH]; intros left f r l; simpl.
  - intros [= <- <- <-]. done.
  - destruct (left =? 0) eqn:E0; [intros [= <- <- <-]; done|].
    destruct (o_shares o <=? left) eqn:E1.
    + destruct (consume (left - o_shares o) q) as [[f' r'] l'] eqn:E.
      intros [= <- <- <-] Hl. eauto.
    + intros [= <- <- <-]. done.
Qed.

Lemma consume_total left q f r l :
  consume left q = (f, r, l) ->
  total_filled f + l = left /\ total_filled f + total_shares r = total_shares q.
Proof.
  revert left f r l; induction q as [|o q IH]; intros left f r l; simpl.
  - intros [= <- <- <-]. simpl. lia.
  - destruct (left =? 0) eqn:E0; [intros [= <- <- <-]; simpl; nb; lia|].
    destruct (o_shares o <=? left) eqn:E1.
    + destruct (consume (left - o_shares o) q) as [[f' r'] l'] eqn:E.
      intros [= <- <- <-]. apply IH in E as [Ha Hb]. simpl. nb. lia.
    + intros [= <- <- <-]. simpl. nb. lia.
Qed.

(** What survives is the unchanged tail of the queue, with at most its first
    order reduced. *)
Lemma consume_shape left q f r l :
  consume left q = (f, r, l) ->
  (exists done, q = done ++ r /\ f = map (fun o => (o_limit o, o_shares o)) done) \/
  (exists done o rest d,
     q = done ++ o :: rest /\ r = set_shares o (o_shares o - d) :: rest /\
     0 < d < o_shares o /\ l = 0 /\
     f = map (fun o => (o_limit o, o_shares o)) done ++ [(o_limit o, d)]).
Proof.
  revert left f r l; induction q as [|o q IH]; intros left f r l; simpl.
  - intros [= <- <- <-]. left. exists []. done.
  - destruct (left =? 0) eqn:E0; [intros [= <- <- <-]; left; by exists []|].
    destruct (o_shares o <=? left) eqn:E1.
    + destruct (consume (left - o_shares o) q) as [[f' r'] l'] eqn:E.
      intros [= <- <- <-]. apply IH in E as [(dn & -> & ->)|(dn & x & rest & d & -> & -> & Hd & -> & ->)].
      * left. exists (o :: dn). done.
      * right. exists (o :: dn), x, rest, d. done.
    + intros [= <- <- <-]. right. exists [], o, q, left. nb. simpl. split_and!; try done; lia.
Qed.

Lemma consume_rest_price left q f r l p :
  consume left q = (f, r, l) -> Forall (fun o => o_limit o = p) q ->
  Forall (fun o => o_limit o = p) r /\ Forall (fun x => fst x = p) f.
Proof.
  intros E Hq. apply consume_shape in E as [(dn & -> & ->)|(dn & x & rest & d & -> & -> & Hd & -> & ->)].
  - apply Forall_app in Hq as [H1 H2]. split; [done|].
    apply Forall_map. eapply Forall_impl; [exact H1|]. done.
  - apply Forall_app in Hq as [H1 H2]. apply Forall_cons in H2 as [Hx H2].
    split; [constructor; done|]. apply Forall_app. split; [|repeat constructor; done].
    apply Forall_map. eapply Forall_impl; [exact H1|]. done.
Qed.

Lemma consume_rest_ids left q f r l :
  consume left q = (f, r, l) -> exists done, ids q = done ++ ids r.
Proof.
  intros E. apply consume_shape in E as [(dn & -> & ->)|(dn & x & rest & d & -> & -> & Hd & -> & ->)];
    unfold ids; rewrite map_app; eauto.
Qed.

Lemma consume_fills_cons left o q f r l :
  consume left (o :: q) = (f, r, l) -> left <> 0 -> f <> [].
Proof.
  simpl. intros E H. destruct (left =? 0) eqn:E0; [nb; done|].
  destruct (o_shares o <=? left); [|by injection E as <- <- <-].
  destruct (consume _ q) as [[??]?]. by injection E as <- <- <-.
Qed.

(** ** per_level *)
Lemma per_level_same p f :
  f <> [] -> Forall (fun x => fst x = p) f -> per_level f = [(p, total_filled f)].
Proof.
  intros Hne H; revert Hne; induction H as [|[p' s] f Hx Hf IH]; intros Hne; [done|].
  simpl in *. subst p'. destruct f as [|y f].
  - simpl. rewrite N.add_0_r. done.
  - rewrite IH by done. rewrite N.eqb_refl. done.
Qed.

Lemma per_level_head x f : exists y g, per_level (x :: f) = y :: g /\ fst y = fst x.
Proof.
  destruct x as [p s]; simpl. destruct (per_level f) as [|[p' s'] g]; [by eauto|].
  case_match; eauto.
Qed.

Lemma per_level_app p f1 f2 :
  f1 <> [] -> Forall (fun x => fst x = p) f1 -> Forall (fun x => fst x <> p) f2 ->
  per_level (f1 ++ f2) = (p, total_filled f1) :: per_level f2.
Proof.
  intros Hne H H2; revert Hne; induction H as [|[p' s] f Hx Hf IH]; intros Hne; [done|].
  simpl in *. subst p'. destruct f as [|y f].
  - simpl. rewrite N.add_0_r. destruct f2 as [|z f2]; [done|].
    destruct (per_level_head z f2) as (u & g & -> & Hu).
    apply Forall_cons in H2 as [Hz _]. destruct u as [pu su]; simpl in *.
    destruct (p =? pu) eqn:E; [nb; congruence|done].
  - rewrite IH by done. rewrite N.eqb_refl. done.
Qed.

Lemma total_filled_app f g : total_filled (f ++ g) = total_filled f + total_filled g.
Proof. induction f as [|x f IH]; simpl; [done|]. lia. Qed.

Lemma per_level_total f : total_filled (per_level f) = total_filled f.
Proof.
  induction f as [|[p s] f IH]; [done|]. simpl.
  destruct (per_level f) as [|[p' s'] g]; simpl in *; [lia|].
  destruct (p =? p'); simpl; lia.
Qed.

(** ** Order map against a queue *)

Lemma find_id_cons id o l :
  find_id id (o :: l) = if decide (o_id o = id) then Some o else find_id id l.
Proof. unfold find_id. rewrite filter_cons. by destruct (decide _). Qed.

Lemma find_id_None id l : id ∉ ids l <-> find_id id l = None.
Proof.
  induction l as [|o l IH]; [split; [done|intros _; apply not_elem_of_nil]|].
  rewrite find_id_cons. unfold ids in *; simpl. rewrite not_elem_of_cons.
  destruct (decide (o_id o = id)); [|naive_solver]. split; [naive_solver|done].
Qed.

Lemma find_id_Some id o l :
  find_id id l = Some o -> o ∈ l /\ o_id o = id.
Proof.
  induction l as [|x l IH]; [done|]. rewrite find_id_cons.
  destruct (decide (o_id x = id)).
  - intros [= ->]. split; [left|done].
  - intros H. apply IH in H as [? ?]. split; [by right|done].
Qed.

Lemma find_id_elem o l : NoDup (ids l) -> o ∈ l -> find_id (o_id o) l = Some o.
Proof.
  induction l as [|x l IH]; [by intros _ ?%elem_of_nil|].
  unfold ids; simpl. rewrite NoDup_cons, elem_of_cons, find_id_cons. intros [Hn Hd].
  intros [->|Hin]; [by rewrite decide_True|].
  destruct (decide (o_id x = o_id o)) as [E|]; [|by apply IH].
  exfalso. apply Hn. rewrite E. apply elem_of_list_fmap. eauto.
Qed.

Lemma elem_ids o l : o ∈ l -> o_id o ∈ ids l.
Proof. intros H. apply elem_of_list_fmap. eauto. Qed.

Lemma ids_elem id l : id ∈ ids l -> exists o, o ∈ l /\ o_id o = id.
Proof. intros H. apply elem_of_list_fmap in H as (o & ? & ?). eauto. Qed.

Definition id_map (a : abook) : gmap N order :=
  list_to_map (map (fun o => (o_id o, o)) a).

Lemma id_map_lookup a id : id_map a !! id = find_id id a.
Proof.
  unfold id_map. induction a as [|o a IH]; simpl; [done|].
  rewrite find_id_cons. destruct (decide (o_id o = id)) as [->|Hne].
  - by rewrite lookup_insert.
  - by rewrite lookup_insert_ne.
Qed.

(** ** Limit::execute against [consume] *)

Lemma limit_execute_loop_spec q : forall shares executed m f r l,
  executed <= shares -> shares <= u64_max ->
  NoDup (ids q) -> Forall (fun o => m !! o_id o = Some o) q ->
  consume (shares - executed) q = (f, r, l) ->
  exists m',
    limit_execute_loop (ids q) shares executed m = Ret (shares - l, ids r, m') /\
    forall id, m' !! id = if decide (id ∈ ids q) then find_id id r else m !! id.
Proof.
  induction q as [|o q IH]; intros shares executed m f r l Hle Hmax Hnd Hm Hc.
  - cbn [consume] in Hc. injection Hc as <- <- <-. exists m. split.
    + cbn. do 2 f_equal. f_equal. lia.
    + intros id. rewrite decide_False; [done|]. apply not_elem_of_nil.
  - apply Forall_cons in Hm as [Ho Hm].
    apply NoDup_cons in Hnd as [Hno Hnd].
    cbn [consume] in Hc. cbn [ids map limit_execute_loop].
    destruct (shares - executed =? 0) eqn:E0.
    { injection Hc as <- <- <-. nb.
      destruct (executed <? shares) eqn:E1; [nb; lia|]. nb.
      exists m. split; [do 2 f_equal; f_equal; lia|].
      intros id. destruct (decide _) as [Hin|]; [|done].
      apply (ids_elem id (o :: q)) in Hin as (x & Hx & <-).
      rewrite find_id_elem; [|by constructor|done].
      apply elem_of_cons in Hx as [->|Hx]; [done|].
      rewrite Forall_forall in Hm. by apply Hm. }
    nb. destruct (executed <? shares) eqn:E1; nb; [|lia].
    rewrite Ho. cbn [unwrap bind]. unfold u64_sub at 1.
    destruct (executed <=? shares) eqn:E2; nb; [|lia]. cbn [bind].
    destruct (o_shares o <=? shares - executed) eqn:E3; nb.
    + destruct (shares - executed <? o_shares o) eqn:E4; nb; [lia|].
      unfold u64_add. destruct (executed + o_shares o <=? u64_max) eqn:E5; nb; [|lia].
      cbn [bind].
      destruct (consume (shares - executed - o_shares o) q) as [[f' r'] l'] eqn:E.
      injection Hc as <- <- <-.
      destruct (IH shares (executed + o_shares o) (delete (o_id o) m) f' r' l') as (m' & Hm1 & Hm2);
        [lia|done|done| |replace (shares - (executed + o_shares o)) with (shares - executed - o_shares o) by lia; done|].
      { rewrite Forall_forall in *. intros x Hx. rewrite lookup_delete_ne; [by apply Hm|].
        intros Heq. apply Hno. rewrite Heq. by apply elem_ids. }
      exists m'. split; [exact Hm1|]. intros id. rewrite Hm2.
      assert (id ∈ ids (o :: q) <-> id = o_id o \/ id ∈ ids q) as Hiff
        by (unfold ids; simpl; apply elem_of_cons).
      destruct (decide (id ∈ ids q)) as [Hin|Hin].
      { rewrite decide_True; [done|]. apply Hiff. by right. }
      destruct (decide (id ∈ o_id o :: map o_id q)) as [Hin'|Hin'].
      * apply Hiff in Hin' as [->|?]; [|done]. rewrite lookup_delete.
        symmetry. apply find_id_None.
        apply consume_rest_ids in E as (dn & Hdn). rewrite Hdn in Hin.
        intros ?. apply Hin. apply elem_of_app. by right.
      * rewrite lookup_delete_ne; [done|]. intros Heq. apply Hin'. rewrite Heq. by left.
    + injection Hc as <- <- <-.
      destruct (shares - executed <? o_shares o) eqn:E4; nb; [|lia].
      unfold u64_sub at 1. destruct (shares - executed <=? o_shares o) eqn:E5; nb; [|lia].
      cbn [bind]. unfold u64_add.
      destruct (executed + (shares - executed) <=? u64_max) eqn:E6; nb; [|lia].
      cbn [bind].
      destruct (executed + (shares - executed) <? shares) eqn:E7; nb; [lia|].
      eexists. split; [do 2 f_equal; f_equal; lia|].
      intros id. rewrite find_id_cons. cbn [o_id set_shares].
      destruct (decide (o_id o = id)) as [<-|Hne].
      * rewrite lookup_insert. rewrite decide_True; [done|]. by left.
      * rewrite lookup_insert_ne by done.
        destruct (decide _) as [Hin|]; [|done].
        apply elem_of_cons in Hin as [->|Hin]; [done|].
        apply ids_elem in Hin as (x & Hx & <-).
        rewrite find_id_elem by done. rewrite Forall_forall in Hm. by apply Hm.
Qed.

(** ** Price levels in priority order *)

Definition group := (N * list order)%type.
Definition lv (gs : list group) : btree :=
  map (fun g => (fst g, Limit (fst g) (ids (snd g)))) gs.
Definition flat (gs : list group) : list order := concat (map snd gs).
(** tree whose best-first list of levels is [lv gs] *)
Definition tree_of (s : bool) (gs : list group) : btree :=
  if s then lv gs else rev (lv gs).
Definition better (s : bool) (p q : N) : Prop := if s then p < q else q < p.
Definition group_ok (g : group) : Prop :=
  snd g <> [] /\ Forall (fun o => o_limit o = fst g) (snd g).
Definition groups_ok (s : bool) (gs : list group) : Prop :=
  StronglySorted (better s) (map fst gs) /\ Forall group_ok gs.

Lemma groups_ok_cons s g gs :
  groups_ok s (g :: gs) <->
  Forall (fun h => better s (fst g) (fst h)) gs /\ group_ok g /\ groups_ok s gs.
Proof.
  unfold groups_ok. simpl. split.
  - intros [H1 H2]. apply StronglySorted_inv in H1 as [H1 H1']. apply Forall_cons in H2 as [??].
    split; [|done]. rewrite Forall_map in H1'. exact H1'.
  - intros (H1 & H2 & H3 & H4). split; [|by constructor].
    constructor; [done|]. apply Forall_map. done.
Qed.

Lemma tree_best (s : bool) g gs :
  (if s then bt_first (tree_of s (g :: gs)) else bt_last (tree_of s (g :: gs)))
  = Some (fst g, Limit (fst g) (ids (snd g))).
Proof.
  destruct s; simpl; [done|]. unfold bt_last. by rewrite last_snoc.
Qed.
Lemma tree_best_nil (s : bool) :
  (if s then bt_first (tree_of s []) else bt_last (tree_of s [])) = None.
Proof. by destruct s. Qed.

Lemma bt_insert_last k v v0 t :
  Forall (fun x => fst x < k) t -> bt_insert k v (t ++ [(k, v0)]) = t ++ [(k, v)].
Proof.
  induction 1 as [|[k' v'] t Hx Ht IH]; simpl in *.
  - destruct (k <? k) eqn:E; nb; [lia|]. by rewrite N.eqb_refl.
  - destruct (k <? k') eqn:E; nb; [lia|]. destruct (k =? k') eqn:E'; nb; [lia|].
    by rewrite IH.
Qed.

Lemma tree_replace s g q gs :
  Forall (fun h => better s (fst g) (fst h)) gs ->
  bt_insert (fst g) (Limit (fst g) (ids q)) (tree_of s (g :: gs))
  = tree_of s ((fst g, q) :: gs).
Proof.
  intros H. destruct s; simpl in *.
  - rewrite N.ltb_irrefl, N.eqb_refl. reflexivity.
  - apply bt_insert_last. apply Forall_rev. unfold lv. apply Forall_map.
    eapply Forall_impl; [exact H|]. intros h Hh. simpl. done.
Qed.

Lemma tree_pop (s : bool) g gs :
  (if s then bt_pop_first (tree_of s (g :: gs)) else bt_pop_last (tree_of s (g :: gs)))
  = tree_of s gs.
Proof.
  destruct s; simpl; [done|]. unfold bt_pop_last. apply removelast_last.
Qed.

(** surviving groups after a market order of size [left] *)
Fixpoint rest_groups (left : N) (gs : list group) : list group :=
  match gs with
  | [] => []
  | g :: gs' =>
      if left =? 0 then gs
      else match consume left (snd g) with
           | (_, [], l) => rest_groups l gs'
           | (_, r, _) => (fst g, r) :: gs'
           end
  end.

Lemma rest_groups_0 gs : rest_groups 0 gs = gs.
Proof. by destruct gs. Qed.

Lemma rest_groups_flat left gs f r l :
  consume left (flat gs) = (f, r, l) -> flat (rest_groups left gs) = r.
Proof.
  revert left f r l; induction gs as [|g gs IH]; intros left f r l Hc.
  - cbn in Hc. by injection Hc as <- <- <-.
  - cbn [flat map concat] in Hc. rewrite consume_app in Hc.
    cbn [rest_groups]. destruct (left =? 0) eqn:E0.
    { nb. subst left. destruct (snd g) as [|x q] eqn:Eg; simpl in Hc.
      - unfold flat. simpl. rewrite Eg. simpl. fold (flat gs).
        fold (flat gs) in Hc. destruct (flat gs); simpl in Hc; by injection Hc as <- <- <-.
      - unfold flat. simpl. rewrite Eg. simpl. fold (flat gs). fold (flat gs) in Hc.
        destruct (flat gs); simpl in Hc; injection Hc as <- <- <-; done. }
    destruct (consume left (snd g)) as [[f1 r1] l1] eqn:E1.
    fold (flat gs) in Hc.
    destruct (consume l1 (flat gs)) as [[f2 r2] l2] eqn:E2.
    injection Hc as <- <- <-. destruct r1 as [|x r1].
    + simpl. eauto.
    + assert (l1 = 0) as ->.
      { destruct (decide (l1 = 0)); [done|].
        apply consume_rest_nil in E1; done. }
      unfold flat at 1. simpl. fold (flat gs).
      destruct (flat gs); simpl in E2; by injection E2 as <- <- <-.
Qed.

Lemma rest_groups_ok s left gs : groups_ok s gs -> groups_ok s (rest_groups left gs).
Proof.
  revert left; induction gs as [|g gs IH]; intros left H; [done|].
  cbn [rest_groups]. destruct (left =? 0); [done|].
  destruct (consume left (snd g)) as [[f1 r1] l1] eqn:E1.
  apply groups_ok_cons in H as (H1 & [H2 H2'] & H3).
  destruct r1 as [|x r1]; [by apply IH|].
  apply groups_ok_cons. simpl. split; [done|]. split; [|done].
  split; [done|]. by eapply consume_rest_price in E1 as [? _].
Qed.

(** The market loop on a tree whose best-first levels are [gs]. *)
Lemma market_loop_spec s gs : forall fuel left m res f r l,
  (length gs < fuel)%nat ->
  left <= u64_max ->
  groups_ok s gs -> NoDup (ids (flat gs)) ->
  Forall (fun o => m !! o_id o = Some o) (flat gs) ->
  consume left (flat gs) = (f, r, l) ->
  exists m',
    market_loop fuel s (tree_of s gs) m left res
    = Ret (tree_of s (rest_groups left gs), m', (l =? 0, res ++ per_level f)) /\
    forall id, m' !! id = if decide (id ∈ ids (flat gs)) then find_id id r else m !! id.
Proof.
  induction gs as [|g gs IH]; intros fuel left m res f r l Hf Hmax Hok Hnd Hm Hc.
  - destruct fuel as [|fuel]; [lia|]. cbn in Hc. injection Hc as <- <- <-.
    exists m. split.
    + cbn [market_loop]. destruct (0 <? left) eqn:E; nb.
      * rewrite tree_best_nil. cbn. rewrite app_nil_r.
        destruct (left =? 0) eqn:E'; nb; [lia|done].
      * replace left with 0 by lia. cbn. by rewrite app_nil_r.
    + intros id. rewrite decide_False; [done|]. apply not_elem_of_nil.
  - destruct fuel as [|fuel]; [simpl in Hf; lia|].
    cbn [flat map concat] in *. fold (flat gs) in *.
    rewrite consume_app in Hc.
    destruct (consume left (snd g)) as [[f1 r1] l1] eqn:E1.
    destruct (consume l1 (flat gs)) as [[f2 r2] l2] eqn:E2.
    injection Hc as <- <- <-.
    unfold ids in Hnd. rewrite map_app in Hnd. fold (ids (snd g)) (ids (flat gs)) in Hnd.
    apply NoDup_app in Hnd as (Hnd1 & Hnd12 & Hnd2).
    apply Forall_app in Hm as [Hm1 Hm2].
    apply groups_ok_cons in Hok as (Hbet & [Hne Hlim] & Hok).
    cbn [market_loop rest_groups]. destruct (0 <? left) eqn:E; nb.
    2:{ assert (left = 0) as -> by lia. 
        assert (f1 = [] /\ r1 = snd g /\ l1 = 0) as (-> & -> & ->).
        { destruct (snd g); simpl in E1; injection E1 as <- <- <-; done. }
        assert (f2 = [] /\ r2 = flat gs /\ l2 = 0) as (-> & -> & ->).
        { destruct (flat gs); simpl in E2; injection E2 as <- <- <-; done. }
        simpl. exists m. split; [by rewrite app_nil_r|].
        intros id. unfold ids. rewrite map_app.
        destruct (decide _) as [Hin|]; [|done].
        rewrite <-map_app in Hin. apply ids_elem in Hin as (x & Hx & <-).
        rewrite find_id_elem; [|unfold ids; rewrite map_app; by apply NoDup_app|done].
        apply elem_of_app in Hx as [Hx|Hx].
        - rewrite Forall_forall in Hm1. by apply Hm1.
        - rewrite Forall_forall in Hm2. by apply Hm2. }
    destruct (left =? 0) eqn:E0; nb; [lia|].
    rewrite tree_best. unfold limit_execute. cbn [l_orders l_price].
    destruct (limit_execute_loop_spec (snd g) left 0 m f1 r1 l1) as (m1 & -> & Hm1');
      [lia|done|done|done|by rewrite N.sub_0_r|].
    pose proof (consume_left_le _ _ _ _ _ E1) as Hl1.
    cbn [bind]. rewrite tree_replace by done.
    unfold u64_sub. destruct (left - l1 <=? left) eqn:E3; nb; [|lia]. cbn [bind].
    rewrite E1.
    replace (left - (left - l1)) with l1 by lia.
    pose proof (consume_rest_price _ _ _ _ _ _ E1 Hlim) as [Hr1 Hf1].
    pose proof (consume_total _ _ _ _ _ E1) as [Ht1 Ht2].
    assert (f1 <> []) as Hf1ne.
    { destruct (snd g) as [|x q]; [done|]. by eapply consume_fills_cons in E1. }
    replace (left - l1) with (total_filled f1) by lia.
    assert (Forall (fun x : N * N => fst x <> fst g) f2) as Hf2.
    { assert (Forall (fun o => o_limit o <> fst g) (flat gs)) as HH.
      { unfold flat. apply Forall_concat. apply Forall_map.
        destruct Hok as [_ Hok]. rewrite Forall_forall in Hok, Hbet.
        apply Forall_forall. intros h Hh. destruct (Hok _ Hh) as [_ Hl].
        specialize (Hbet _ Hh). eapply Forall_impl; [exact Hl|]. intros o Ho. rewrite Ho.
        unfold better in Hbet. destruct s; lia. }
      apply consume_shape in E2 as [(dn & Hfl & ->)|(dn & x & rest & d & Hfl & _ & Hd & _ & ->)].
      - rewrite Hfl in HH. apply Forall_app in HH as [HH _]. by apply Forall_map.
      - rewrite Hfl in HH. apply Forall_app in HH as [HH HH']. apply Forall_app. split.
        + by apply Forall_map.
        + apply Forall_cons in HH' as [? _]. repeat constructor. done. }
    destruct r1 as [|x r1].
    + cbn [ids map is_empty l_price]. rewrite tree_pop.
      destruct (IH fuel l1 m1 (res ++ [(fst g, total_filled f1)]) f2 r2 l2) as (m2 & -> & Hm2');
        [simpl in Hf; lia|lia|done|done| |done|].
      { rewrite Forall_forall in *. intros o Ho. rewrite Hm1'. rewrite decide_False; [by apply Hm2|].
        intros Hin. apply (Hnd12 _ Hin). by apply elem_ids. }
      exists m2. split.
      * do 2 f_equal. f_equal. rewrite <-app_assoc. f_equal.
        symmetry. by apply per_level_app.
      * intros id. rewrite Hm2', Hm1'. simpl. unfold ids. rewrite map_app.
        fold (ids (snd g)) (ids (flat gs)).
        assert (id ∈ ids (snd g) ++ ids (flat gs) <-> id ∈ ids (snd g) \/ id ∈ ids (flat gs)) as Hiff
          by apply elem_of_app.
        destruct (decide (id ∈ ids (flat gs))) as [Hin|Hin].
        { rewrite decide_True; [done|]. by apply Hiff; right. }
        destruct (decide (id ∈ ids (snd g))) as [Hin'|Hin'].
        { rewrite decide_True by (by apply Hiff; left).
          change (find_id id []) with (@None order). symmetry. apply find_id_None.
          apply consume_rest_ids in E2 as (dn & Hdn). intros ?. apply Hin.
          rewrite Hdn. apply elem_of_app. by right. }
        rewrite decide_False; [done|]. intros [?|?]%Hiff; done.
    + assert (l1 = 0) as ->.
      { destruct (decide (l1 = 0)); [done|]. apply consume_rest_nil in E1; done. }
      assert (f2 = [] /\ r2 = flat gs /\ l2 = 0) as (-> & -> & ->).
      { destruct (flat gs); simpl in E2; injection E2 as <- <- <-; done. }
      cbn [ids map is_empty l_price].
      destruct fuel as [|fuel]; [simpl in Hf; lia|].
      cbn [market_loop]. destruct (0 <? 0) eqn:E4; nb; [lia|].
      exists m1. split.
      * rewrite app_nil_r. do 2 f_equal. f_equal. f_equal. symmetry. by apply per_level_same.
      * intros id. rewrite Hm1'. unfold ids. rewrite map_app.
        fold (ids (snd g)) (ids (flat gs)).
        assert (id ∈ ids (snd g) ++ ids (flat gs) <-> id ∈ ids (snd g) \/ id ∈ ids (flat gs)) as Hiff
          by apply elem_of_app.
        assert (forall id l l', id ∉ ids l -> find_id id (l ++ l') = find_id id l') as Hfa.
        { clear. intros id l l'. induction l as [|o l IH]; [done|].
          unfold ids; simpl. rewrite not_elem_of_cons, find_id_cons. intros [H1 H2].
          rewrite decide_False by done. by apply IH. }
        assert (forall id l l', id ∉ ids l' -> find_id id (l ++ l') = find_id id l) as Hfb.
        { clear. intros id l l' Hn. induction l as [|o l IH].
          - simpl. apply find_id_None in Hn. by rewrite Hn.
          - simpl. rewrite !find_id_cons. by destruct (decide _). }
        assert (forall id, id ∈ ids (x :: r1) -> id ∈ ids (snd g)) as Hsub.
        { intros i Hi. apply consume_rest_ids in E1 as (dn & ->). apply elem_of_app. by right. }
        destruct (decide (id ∈ ids (snd g))) as [Hin|Hin].
        { rewrite decide_True by (by apply Hiff; left). rewrite Hfb; [done|].
          intros ?. by apply (Hnd12 id). }
        destruct (decide (id ∈ ids (flat gs))) as [Hin'|Hin'].
        { rewrite decide_True by (by apply Hiff; right). rewrite Hfa by naive_solver.
          apply ids_elem in Hin' as (y & Hy & <-). rewrite find_id_elem by done.
          rewrite Forall_forall in Hm2. by apply Hm2. }
        rewrite decide_False; [done|]. intros [?|?]%Hiff; done.
Qed.

(** ** The sorted association list *)

Definition sorted (t : btree) : Prop := StronglySorted N.lt (map fst t).

Lemma bt_get_insert p k v t :
  bt_get p (bt_insert k v t) = if decide (p = k) then Some v else bt_get p t.
Proof.
  induction t as [|[k' v'] t IH]; simpl.
  - destruct (decide (p = k)) as [->|Hne]; [by rewrite N.eqb_refl|].
    destruct (p =? k) eqn:E; nb; done.
  - destruct (k <? k') eqn:E1; simpl.
    { destruct (p =? k) eqn:E; nb; [by rewrite decide_True|by rewrite decide_False]. }
    destruct (k =? k') eqn:E2; simpl; nb.
    { subst k'. destruct (p =? k) eqn:E; nb; [by rewrite decide_True|by rewrite decide_False]. }
    rewrite IH. destruct (p =? k') eqn:E; [|done]. nb. subst.
    by rewrite decide_False.
Qed.

Lemma bt_insert_keys k v t x :
  x ∈ map fst (bt_insert k v t) <-> x = k \/ x ∈ map fst t.
Proof.
  induction t as [|[k' v'] t IH]; simpl.
  - set_solver.
  - destruct (k <? k') eqn:E1; simpl; [set_solver|].
    destruct (k =? k') eqn:E2; simpl; nb; [subst; set_solver|].
    rewrite !elem_of_cons, IH. naive_solver.
Qed.

Lemma bt_insert_sorted k v t : sorted t -> sorted (bt_insert k v t).
Proof.
  unfold sorted. induction t as [|[k' v'] t IH]; simpl; [repeat constructor|].
  intros [Hs Ha]%StronglySorted_inv.
  destruct (k <? k') eqn:E1; simpl; nb.
  { constructor; [by constructor|]. constructor; [done|].
    eapply Forall_impl; [exact Ha|]. simpl; lia. }
  destruct (k =? k') eqn:E2; simpl; nb; [subst; by constructor|].
  constructor; [by apply IH|]. apply Forall_forall. intros x Hx.
  apply bt_insert_keys in Hx as [->|Hx]; [lia|]. rewrite Forall_forall in Ha. by apply Ha.
Qed.

Lemma bt_get_notin p t : p ∉ map fst t -> bt_get p t = None.
Proof.
  induction t as [|[k v] t IH]; simpl; [done|]. rewrite not_elem_of_cons. intros [H1 H2].
  destruct (p =? k) eqn:E; nb; [done|by apply IH].
Qed.

Lemma bt_get_in_iff p t : is_Some (bt_get p t) <-> p ∈ map fst t.
Proof.
  induction t as [|[k v] t IH]; simpl.
  - split; [by intros []|by intros ?%elem_of_nil].
  - rewrite elem_of_cons. destruct (p =? k) eqn:E; nb; [|naive_solver].
    split; [by left|by eauto].
Qed.

Lemma bt_remove_keys k t x : x ∈ map fst (bt_remove k t) -> x ∈ map fst t.
Proof.
  induction t as [|[k' v'] t IH]; simpl; [done|].
  destruct (k =? k'); simpl; rewrite !elem_of_cons; naive_solver.
Qed.

Lemma bt_remove_sorted k t : sorted t -> sorted (bt_remove k t).
Proof.
  unfold sorted. induction t as [|[k' v'] t IH]; simpl; [done|].
  intros [Hs Ha]%StronglySorted_inv. destruct (k =? k'); [done|].
  simpl. constructor; [by apply IH|]. apply Forall_forall. intros x Hx%bt_remove_keys.
  rewrite Forall_forall in Ha. by apply Ha.
Qed.

Lemma sorted_NoDup t : sorted t -> NoDup (map fst t).
Proof.
  unfold sorted. induction 1 as [|x l Hl IH Hx]; constructor; [|done].
  rewrite Forall_forall in Hx. intros Hin%Hx. lia.
Qed.

Lemma bt_get_remove p k t :
  sorted t -> bt_get p (bt_remove k t) = if decide (p = k) then None else bt_get p t.
Proof.
  intros Hs%sorted_NoDup. induction t as [|[k' v'] t IH]; simpl in *.
  - by destruct (decide _).
  - apply NoDup_cons in Hs as [Hn Hs]. destruct (k =? k') eqn:E; simpl; nb.
    + subst k'. destruct (decide (p = k)) as [->|Hne]; [by apply bt_get_notin|].
      destruct (p =? k) eqn:E'; nb; done.
    + rewrite IH by done. destruct (p =? k') eqn:E'; [|done]. nb; subst.
      by rewrite decide_False.
Qed.

Lemma bt_get_elem k v t : NoDup (map fst t) -> (k, v) ∈ t -> bt_get k t = Some v.
Proof.
  induction t as [|[k' v'] t IH]; simpl; [by intros _ ?%elem_of_nil|].
  intros [Hn Hd]%NoDup_cons. rewrite elem_of_cons. intros [[= -> ->]|Hin].
  - by rewrite N.eqb_refl.
  - destruct (k =? k') eqn:E; nb; [|by apply IH]. subst k'. exfalso. apply Hn.
    apply elem_of_list_fmap. by exists (k, v).
Qed.

Lemma bt_get_perm p t1 t2 :
  NoDup (map fst t1) -> t1 ≡ₚ t2 -> bt_get p t1 = bt_get p t2.
Proof.
  intros Hnd Hp.
  assert (NoDup (map fst t2)) as Hnd2 by (by rewrite <-Hp).
  destruct (bt_get p t1) as [v|] eqn:E.
  - assert ((p, v) ∈ t1) as Hin.
    { clear -E. induction t1 as [|[k w] t IH]; simpl in *; [done|].
      destruct (p =? k) eqn:E'; nb; [injection E as ->; subst; left|right; auto]. }
    symmetry. apply bt_get_elem; [done|]. by rewrite <-Hp.
  - symmetry. apply bt_get_notin. intros Hin. rewrite <-Hp in Hin.
    apply bt_get_in_iff in Hin as [v Hv]. congruence.
Qed.

(** ** A side of the book against the orders of that side *)

(** the level the code must hold for price [p] *)
Definition level (p : N) (l : list order) : option limit :=
  match atp p l with [] => None | q => Some (Limit p (ids q)) end.

Definition tree_ok (t : btree) (l : list order) : Prop :=
  sorted t /\ forall p, bt_get p t = level p l.

Lemma level_ids p l l' : ids (atp p l) = ids (atp p l') -> level p l = level p l'.
Proof.
  unfold level, ids. destruct (atp p l), (atp p l'); simpl; intros H; try discriminate H; [done|].
  by rewrite H.
Qed.

Lemma tree_ok_ext t l l' :
  (forall p, atp p l = atp p l') -> tree_ok t l -> tree_ok t l'.
Proof.
  intros H [H1 H2]. split; [done|]. intros p. rewrite H2. apply level_ids. by rewrite H.
Qed.

Lemma atp_concat l ks p :
  NoDup ks ->
  atp p (concat (map (fun k => atp k l) ks)) = if decide (p ∈ ks) then atp p l else [].
Proof.
  induction 1 as [|k ks Hk Hks IH]; [done|]. cbn [map concat].
  rewrite filter_app, IH.
  destruct (decide (p = k)) as [->|Hne].
  - rewrite (decide_False (P := k ∈ ks)) by done. rewrite app_nil_r.
    rewrite decide_True by by left. apply atp_all. apply Forall_forall.
    by intros x [? _]%elem_of_list_filter.
  - rewrite (atp_none p (atp k l)); simpl.
    + destruct (decide (p ∈ ks)).
      * by rewrite decide_True by by right.
      * rewrite decide_False; [done|]. by rewrite elem_of_cons; intros [?|?].
    + apply Forall_forall. intros x [Hx _]%elem_of_list_filter. congruence.
Qed.

Definition groups_of (l : list order) (ks : list N) : list group :=
  map (fun k => (k, atp k l)) ks.

Lemma flat_groups_of l ks : flat (groups_of l ks) = concat (map (fun k => atp k l) ks).
Proof. unfold flat, groups_of. rewrite map_map. done. Qed.

Lemma flat_sorted s gs : groups_ok s gs -> StronglySorted (good s) (flat gs).
Proof.
  induction gs as [|g gs IH]; [constructor|].
  intros (H1 & [_ H2] & H3)%groups_ok_cons. specialize (IH H3).
  unfold flat. simpl. fold (flat gs).
  assert (Forall (fun o => better s (fst g) (o_limit o)) (flat gs)) as Hr.
  { unfold flat. apply Forall_concat. apply Forall_map. destruct H3 as [_ H3].
    rewrite Forall_forall in H1, H3 |- *. intros h Hh.
    destruct (H3 _ Hh) as [_ Hl]. specialize (H1 _ Hh).
    eapply Forall_impl; [exact Hl|]. intros o Ho. by rewrite Ho. }
  induction H2 as [|o q Ho Hq IHq]; simpl; [done|].
  constructor; [done|]. apply Forall_app. split.
  - eapply Forall_impl; [exact Hq|]. intros y Hy. simpl in *.
    unfold good, at_least_as_good. rewrite Ho, Hy. destruct s; apply N.leb_refl.
  - eapply Forall_impl; [exact Hr|]. intros y Hy. simpl in *.
    unfold good, at_least_as_good. rewrite Ho. unfold better in Hy.
    destruct s; apply N.leb_le; lia.
Qed.

Lemma StronglySorted_app_2 {A} (P : A -> A -> Prop) (l1 l2 : list A) :
  (forall x y, x ∈ l1 -> y ∈ l2 -> P x y) ->
  StronglySorted P l1 -> StronglySorted P l2 -> StronglySorted P (l1 ++ l2).
Proof.
  intros HP H1 H2. induction H1 as [|x l1 Hl IH Hx]; simpl; [done|].
  constructor.
  - apply IH. intros y z Hy Hz. apply HP; [by right|done].
  - apply Forall_app. split; [done|]. apply Forall_forall. intros y Hy.
    apply HP; [by left|done].
Qed.

Lemma StronglySorted_rev {A} (P Q : A -> A -> Prop) (l : list A) :
  (forall x y, P x y -> Q y x) -> StronglySorted P l -> StronglySorted Q (rev l).
Proof.
  intros HPQ. induction 1 as [|x l Hl IH Hx]; simpl; [constructor|].
  apply StronglySorted_app_2; [|done|repeat constructor].
  intros y z Hy Hz. apply elem_of_list_singleton in Hz as ->. apply HPQ.
  rewrite Forall_forall in Hx. apply Hx. rewrite <-(rev_involutive l).
  apply elem_of_list_In. apply in_rev. rewrite rev_involutive. by apply elem_of_list_In.
Qed.

Lemma lv_rev gs : lv (rev gs) = rev (lv gs).
Proof. unfold lv. apply map_rev. Qed.

Lemma lv_keys gs : map fst (lv gs) = map fst gs.
Proof. unfold lv. rewrite map_map. done. Qed.

Lemma tree_ok_groups s t l :
  tree_ok t l ->
  exists gs, t = tree_of s gs /\ groups_ok s gs /\ flat gs = priority s l.
Proof.
  intros [Hs Hget]. pose proof (sorted_NoDup _ Hs) as Hnd.
  set (ks := if s then map fst t else rev (map fst t)).
  assert (NoDup ks) as Hks.
  { unfold ks. destruct s; [done|]. by rewrite <-Permutation_rev. }
  assert (forall p, p ∈ ks <-> p ∈ map fst t) as Hin.
  { intros p. unfold ks. destruct s; [done|]. by rewrite <-Permutation_rev. }
  assert (lv (groups_of l (map fst t)) = t) as Hlv.
  { unfold lv, groups_of. rewrite !map_map. simpl.
    rewrite <-(map_id t) at 2. apply map_ext_in. intros [k v] Hkv%elem_of_list_In.
    simpl. pose proof (bt_get_elem _ _ _ Hnd Hkv) as Hg. rewrite Hget in Hg.
    unfold level in Hg. f_equal. destruct (atp k l); [done|]. by injection Hg. }
  assert (groups_ok s (groups_of l ks)) as Hok.
  { split.
    - unfold groups_of. rewrite map_map. simpl. rewrite map_id. unfold ks, better.
      destruct s; [done|]. eapply StronglySorted_rev; [|exact Hs]. done.
    - apply Forall_map. apply Forall_forall. intros k Hk. split; simpl.
      + apply Hin, bt_get_in_iff in Hk. rewrite Hget in Hk. unfold level in Hk.
        destruct (atp k l); [by destruct Hk|done].
      + apply Forall_forall. by intros x [? _]%elem_of_list_filter. }
  exists (groups_of l ks). split; [|split; [done|]].
  - unfold tree_of, ks. destruct s; [done|].
    unfold groups_of. rewrite map_rev, lv_rev, rev_involutive. done.
  - apply (sorted_atp_eq s); [by apply flat_sorted|apply priority_sorted|].
    intros p. rewrite priority_atp, flat_groups_of, atp_concat by done.
    destruct (decide (p ∈ ks)) as [|Hn]; [done|].
    assert (bt_get p t = None) as HN by (apply bt_get_notin; by rewrite <-Hin).
    rewrite Hget in HN. unfold level in HN. by destruct (atp p l).
Qed.

Lemma groups_tree_ok s gs : groups_ok s gs -> tree_ok (tree_of s gs) (flat gs).
Proof.
  intros Hok. pose proof Hok as [Hs Hg].
  assert (NoDup (map fst gs)) as Hnd.
  { clear -Hs. induction Hs as [|k l Hl IH Hk]; constructor; [|done].
    rewrite Forall_forall in Hk. intros Hin%Hk. unfold better in Hin. destruct s; lia. }
  split.
  - unfold sorted, tree_of. destruct s; [by rewrite lv_keys|].
    rewrite map_rev, lv_keys. eapply StronglySorted_rev; [|exact Hs]. done.
  - intros p. transitivity (bt_get p (lv gs)).
    + unfold tree_of. destruct s; [done|]. symmetry. apply bt_get_perm.
      * by rewrite lv_keys.
      * apply Permutation_rev.
    + clear Hok Hs. induction gs as [|g gs IH]; [done|].
      apply Forall_cons in Hg as [[Hne Hl] Hg]. apply NoDup_cons in Hnd as [Hn Hnd].
      unfold level. unfold flat; simpl. fold (flat gs). rewrite filter_app.
      destruct (p =? fst g) eqn:E; nb.
      * subst p. rewrite (atp_all _ _ Hl). rewrite atp_none.
        { rewrite app_nil_r. by destruct (snd g). }
        unfold flat. apply Forall_concat, Forall_map. apply Forall_forall.
        intros h Hh. rewrite Forall_forall in Hg. destruct (Hg _ Hh) as [_ Hl'].
        eapply Forall_impl; [exact Hl'|]. intros o Ho Heq. simpl in *.
        apply Hn. rewrite <-Heq, Ho. apply elem_of_list_fmap. eauto.
      * rewrite (atp_none p (snd g)); [by apply IH|].
        eapply Forall_impl; [exact Hl|]. intros o Ho Heq. simpl in *. congruence.
Qed.

(** ** Simulation *)

Record sim (b : book) (a : abook) : Prop := {
  sim_nodup : NoDup (ids a);
  sim_map : order_map b = id_map a;
  sim_tree : forall s, tree_ok (side_tree b s) (side s a)
}.

Lemma sim_new : sim book_new [].
Proof.
  split; [constructor|done|]. intros []; (split; [constructor|done]).
Qed.

Lemma ids_app l l' : ids (l ++ l') = ids l ++ ids l'.
Proof. apply map_app. Qed.

Lemma ids_filter_sub (P : order -> Prop) `{forall x, Decision (P x)} l id :
  id ∈ ids (filter P l) -> id ∈ ids l.
Proof.
  intros (o & [_ Ho]%elem_of_list_filter & <-)%ids_elem. by apply elem_ids.
Qed.

Lemma NoDup_ids_filter (P : order -> Prop) `{forall x, Decision (P x)} l :
  NoDup (ids l) -> NoDup (ids (filter P l)).
Proof.
  induction l as [|o l IH]; [done|]. intros [Hn Hd]%NoDup_cons.
  rewrite filter_cons. destruct (decide (P o)); [|by apply IH].
  constructor; [|by apply IH]. intros ?%ids_filter_sub. done.
Qed.

Lemma side_tree_set b s t s' :
  side_tree (set_side_tree b s t) s' = if decide (s' = s) then t else side_tree b s'.
Proof. by destruct s, s'. Qed.
Lemma order_map_set b s t : order_map (set_side_tree b s t) = order_map b.
Proof. by destruct s. Qed.
Lemma side_tree_map b m s : side_tree (set_order_map b m) s = side_tree b s.
Proof. by destruct s. Qed.

Lemma add_sim b a id is_buy shares lim ts b' e :
  sim b a -> add_order b id is_buy shares lim ts = (b', e) ->
  sim b' (fst (spec_step a (Add id is_buy shares lim ts))) /\
  snd (spec_step a (Add id is_buy shares lim ts)) = ODone e.
Proof.
  intros [Hnd Hmap Htree]. unfold add_order. cbn [spec_step].
  rewrite Hmap, id_map_lookup.
  destruct (find_id id a) as [o|] eqn:E.
  { intros [= <- <-]. destruct (decide (id ∈ ids a)) as [|Hn]; [done|].
    apply find_id_None in Hn. congruence. }
  apply find_id_None in E. rewrite decide_False by done.
  set (o := Order id is_buy shares lim ts).
  rewrite side_tree_map. destruct (Htree is_buy) as [Hs Hget].
  intros [= <- <-]. split; [|done]. cbn [fst].
  assert (forall s, side s (a ++ [o]) = side s a ++ (if decide (s = is_buy) then [o] else [])) as Hside.
  { intros s. unfold side. rewrite filter_app. f_equal. rewrite filter_cons.
    unfold o; simpl. destruct is_buy, s; done. }
  split.
  - rewrite ids_app. apply NoDup_app. split; [done|]. split; [|apply NoDup_singleton].
    intros x Hx Hx'. apply elem_of_list_singleton in Hx' as ->. done.
  - rewrite order_map_set. simpl. apply map_eq. intros i. rewrite id_map_lookup.
    assert (find_id i (a ++ [o]) = if decide (i = id) then Some o else find_id i a) as ->.
    { clear -E. induction a as [|x a IH].
      - simpl. rewrite find_id_cons. unfold o; simpl.
        destruct (decide (i = id)) as [->|]; [by rewrite decide_True|by rewrite decide_False].
      - apply not_elem_of_cons in E as [E1 E2]. simpl. rewrite !find_id_cons, IH by done.
        destruct (decide (o_id x = i)) as [<-|]; [|done]. by rewrite decide_False. }
    destruct (decide (i = id)) as [->|Hne].
    + by rewrite lookup_insert.
    + rewrite lookup_insert_ne by done. apply id_map_lookup.
  - intros s. rewrite side_tree_set, Hside. destruct (decide (s = is_buy)) as [->|Hne].
    2:{ rewrite app_nil_r. rewrite side_tree_map. apply Htree. }
    split.
    + destruct (bt_get lim _); by apply bt_insert_sorted.
    + intros p.
      assert (level p (side is_buy a ++ [o]) =
              if decide (p = lim) then Some (Limit lim (ids (atp lim (side is_buy a)) ++ [id]))
              else level p (side is_buy a)) as ->.
      { unfold level. rewrite filter_app, filter_cons. unfold o; simpl.
        destruct (decide (p = lim)) as [->|Hne].
        - rewrite decide_True by done. rewrite filter_nil. 
          destruct (atp lim (side is_buy a)) eqn:Ea; [done|]. simpl.
          rewrite ids_app. done.
        - rewrite decide_False by done. by rewrite filter_nil, app_nil_r. }
      destruct (bt_get lim (side_tree b is_buy)) as [v|] eqn:Ev;
        rewrite bt_get_insert; (destruct (decide (p = lim)) as [->|]; [|apply Hget]);
        rewrite Hget in Ev; unfold level in Ev;
        destruct (atp lim (side is_buy a)); try done.
      injection Ev as <-. done.
Qed.

Lemma position_remove id q :
  NoDup q -> id ∈ q ->
  exists i, position id q = Some i /\ remove_at i q = filter (fun x => x <> id) q.
Proof.
  induction q as [|x q IH]; [by intros _ ?%elem_of_nil|].
  intros [Hn Hd]%NoDup_cons Hin. simpl. rewrite filter_cons.
  destruct (x =? id) eqn:E; nb.
  - subst. exists 0%nat. split; [done|]. rewrite decide_False by (by intros ?).
    simpl. clear -Hn. induction q as [|y q IH]; [done|].
    apply not_elem_of_cons in Hn as [H1 H2]. rewrite filter_cons_True by done.
    f_equal. by apply IH.
  - apply elem_of_cons in Hin as [->|Hin]; [done|].
    destruct (IH Hd Hin) as (i & -> & Hi). exists (S i). split; [done|].
    rewrite decide_True by done. simpl. by rewrite Hi.
Qed.

Lemma ids_filter_ne id l : ids (filter (fun o => o_id o <> id) l) = filter (fun x => x <> id) (ids l).
Proof.
  induction l as [|o l IH]; [done|]. rewrite filter_cons. unfold ids in *; simpl.
  rewrite filter_cons. destruct (decide (o_id o <> id)); simpl; by rewrite IH.
Qed.

Lemma filter_comm {A} (P Q : A -> Prop) `{forall x, Decision (P x)} `{forall x, Decision (Q x)} (l : list A) :
  filter P (filter Q l) = filter Q (filter P l).
Proof.
  induction l as [|x l IH]; [done|]. rewrite !filter_cons.
  destruct (decide (Q x)), (decide (P x)); rewrite ?filter_cons, ?IH;
    repeat (destruct (decide _)); done.
Qed.

Lemma find_id_filter_ne i id a :
  find_id i (filter (fun o => o_id o <> id) a) = if decide (i = id) then None else find_id i a.
Proof.
  induction a as [|x a IH]; [by destruct (decide _)|].
  rewrite filter_cons, find_id_cons.
  destruct (decide (o_id x <> id)) as [Hne|He]; [rewrite find_id_cons|];
    rewrite IH; destruct (decide (i = id)), (decide (o_id x = i)); subst; try done.
Qed.

Lemma cancel_sim b a id :
  sim b a ->
  exists b' e, cancel_order b id = Ret (b', e) /\
  sim b' (fst (spec_step a (Cancel id))) /\ snd (spec_step a (Cancel id)) = ODone e.
Proof.
  intros [Hnd Hmap Htree]. unfold cancel_order. cbn [spec_step].
  rewrite Hmap, id_map_lookup.
  destruct (find_id id a) as [o|] eqn:E.
  2:{ apply find_id_None in E. rewrite decide_False by done. do 2 eexists. done. }
  pose proof (find_id_Some _ _ _ E) as [Ho <-].
  rewrite decide_True by (by apply elem_ids).
  rewrite side_tree_map. destruct (Htree (o_is_buy o)) as [Hs Hget].
  rewrite Hget.
  set (q := atp (o_limit o) (side (o_is_buy o) a)).
  assert (o ∈ q) as Hoq.
  { apply elem_of_list_filter. split; [done|]. apply elem_of_list_filter. done. }
  assert (NoDup (ids q)) as Hndq by by apply NoDup_ids_filter, NoDup_ids_filter.
  assert (level (o_limit o) (side (o_is_buy o) a) = Some (Limit (o_limit o) (ids q))) as Hq.
  { unfold level. fold q. destruct q; [by apply elem_of_nil in Hoq|done]. }
  rewrite Hq. cbn [unwrap bind]. unfold limit_cancel. cbn [l_orders l_price].
  destruct (position_remove (o_id o) (ids q)) as (i & -> & Hrem); [done|by apply elem_ids|].
  cbn [unwrap bind]. rewrite Hrem. do 2 eexists. split; [done|]. split; [|done]. cbn [fst].
  rewrite <-ids_filter_ne.
  assert (forall s p, atp p (side s (filter (fun x => o_id x <> o_id o) a))
                      = filter (fun x => o_id x <> o_id o) (atp p (side s a))) as Hcomm.
  { intros s p. unfold side. rewrite (filter_comm (fun x => o_is_buy x = s)).
    apply filter_comm. }
  assert (forall s p, (s, p) <> (o_is_buy o, o_limit o) ->
     filter (fun x => o_id x <> o_id o) (atp p (side s a)) = atp p (side s a)) as Hother.
  { intros s p Hsp. assert (Forall (fun x => o_id x <> o_id o) (atp p (side s a))) as HF.
    { apply Forall_forall. intros x Hx Heq. apply elem_of_list_filter in Hx as [Hx1 Hx].
      apply elem_of_list_filter in Hx as [Hx2 Hx].
      assert (x = o) as -> by (apply (find_id_elem x) in Hx; congruence). congruence. }
    clear -HF. induction HF as [|x l Hx Hl IH]; [done|].
    rewrite filter_cons_True by done. by rewrite IH. }
  split.
  - by apply NoDup_ids_filter.
  - rewrite order_map_set. simpl. apply map_eq. intros j.
    rewrite id_map_lookup, find_id_filter_ne. destruct (decide (j = o_id o)) as [->|Hne].
    + by rewrite lookup_delete.
    + rewrite lookup_delete_ne by done. apply id_map_lookup.
  - intros s. rewrite side_tree_set. destruct (decide (s = o_is_buy o)) as [->|Hne].
    2:{ rewrite side_tree_map. split; [apply Htree|]. intros p.
        rewrite (proj2 (Htree s)). unfold level. rewrite Hcomm, Hother; [done|congruence]. }
    split.
    { destruct (is_empty _); [apply bt_remove_sorted|]; by apply bt_insert_sorted. }
    intros p. unfold level. rewrite Hcomm.
    destruct (decide (p = o_limit o)) as [->|Hne].
    + fold q. destruct (filter (fun x => o_id x <> o_id o) q) as [|y q'] eqn:Eq.
      * cbn [ids map is_empty]. rewrite bt_get_remove by by apply bt_insert_sorted.
        by rewrite decide_True.
      * cbn [ids map is_empty]. rewrite bt_get_insert. by rewrite decide_True.
    + rewrite Hother by congruence.
      destruct (is_empty _); rewrite ?bt_get_remove by (by apply bt_insert_sorted);
        rewrite ?bt_get_insert, ?decide_False by done; rewrite ?decide_False by done; apply Hget.
Qed.

Lemma omap_cons_eq (g : order -> option order) o l :
  omap g (o :: l) = match g o with Some o' => o' :: omap g l | None => omap g l end.
Proof. done. Qed.

Lemma find_id_omap g id l :
  NoDup (ids l) -> (forall o o', g o = Some o' -> o_id o' = o_id o) ->
  find_id id (omap g l) = find_id id l ≫= g.
Proof.
  intros Hnd Hg. induction l as [|o l IH]; [done|].
  apply NoDup_cons in Hnd as [Hn Hnd]. rewrite omap_cons_eq, find_id_cons.
  destruct (g o) as [o'|] eqn:E.
  - rewrite find_id_cons, (Hg _ _ E). destruct (decide (o_id o = id)); [done|by apply IH].
  - rewrite IH by done. destruct (decide (o_id o = id)) as [<-|]; [|done].
    simpl. rewrite E. apply find_id_None in Hn. by rewrite Hn.
Qed.

Lemma ids_omap_sub g id l :
  (forall o o', g o = Some o' -> o_id o' = o_id o) ->
  id ∈ ids (omap g l) -> id ∈ ids l.
Proof.
  intros Hg (o & Ho & <-)%ids_elem. apply elem_of_list_omap in Ho as (o' & Hin & Ho).
  rewrite (Hg _ _ Ho). by apply elem_ids.
Qed.

Lemma NoDup_ids_omap g l :
  NoDup (ids l) -> (forall o o', g o = Some o' -> o_id o' = o_id o) ->
  NoDup (ids (omap g l)).
Proof.
  intros Hnd Hg. induction l as [|o l IH]; [done|].
  apply NoDup_cons in Hnd as [Hn Hnd]. rewrite omap_cons_eq. destruct (g o) as [o'|] eqn:E; [|by apply IH].
  constructor; [|by apply IH]. rewrite (Hg _ _ E). by intros ?%ids_omap_sub.
Qed.

Lemma omap_id (g : order -> option order) l : Forall (fun o => g o = Some o) l -> omap g l = l.
Proof.
  induction 1 as [|o l Ho Hl IH]; [done|]. rewrite omap_cons_eq. by rewrite Ho, IH.
Qed.
Lemma omap_none (g : order -> option order) l : Forall (fun o => g o = None) l -> omap g l = [].
Proof.
  induction 1 as [|o l Ho Hl IH]; [done|]. rewrite omap_cons_eq. by rewrite Ho, IH.
Qed.

(** survivors are recovered from the queue by looking their id up *)
Lemma consume_omap left q f r l :
  NoDup (ids q) -> consume left q = (f, r, l) ->
  omap (fun o => find_id (o_id o) r) q = r /\
  (forall o o', o ∈ q -> find_id (o_id o) r = Some o' ->
     o_limit o' = o_limit o /\ o_is_buy o' = o_is_buy o).
Proof.
  intros Hnd Hc.
  apply consume_shape in Hc as [(dn & -> & ->)|(dn & x & rest & d & -> & -> & Hd & -> & ->)].
  - rewrite ids_app in Hnd. apply NoDup_app in Hnd as (Hn1 & Hn2 & Hn3). split.
    + rewrite omap_app, omap_none, omap_id; [done| |].
      * apply Forall_forall. intros o Ho. by apply find_id_elem.
      * apply Forall_forall. intros o Ho. apply find_id_None. apply Hn2. by apply elem_ids.
    + intros o o' [Ho|Ho]%elem_of_app Hf.
      * apply find_id_Some in Hf as [Hf He]. exfalso. apply (Hn2 (o_id o)); [by apply elem_ids|].
        rewrite <-He. by apply elem_ids.
      * rewrite find_id_elem in Hf by done. by injection Hf as ->.
  - rewrite ids_app in Hnd. apply NoDup_app in Hnd as (Hn1 & Hn2 & Hn3).
    unfold ids in Hn2, Hn3; simpl in Hn2, Hn3. apply NoDup_cons in Hn3 as [Hx Hn3].
    fold (ids rest) in *.
    assert (forall o, o ∈ rest -> o_id x <> o_id o) as Hxo.
    { intros o Ho Heq. apply Hx. rewrite Heq. by apply elem_ids. }
    split.
    + rewrite omap_app, omap_none; [simpl|].
      * rewrite find_id_cons. simpl. rewrite decide_True by done. f_equal.
        apply omap_id. apply Forall_forall. intros o Ho. rewrite find_id_cons. simpl.
        rewrite decide_False by (by apply Hxo). by apply find_id_elem.
      * apply Forall_forall. intros o Ho. apply find_id_None. unfold ids; simpl.
        apply Hn2. by apply elem_ids.
    + intros o o' Ho Hf. rewrite find_id_cons in Hf. simpl in Hf.
      destruct (decide (o_id x = o_id o)) as [He|Hne].
      * injection Hf as <-. simpl. apply elem_of_app in Ho as [Ho|Ho].
        { exfalso. apply (Hn2 (o_id o)); [by apply elem_ids|]. rewrite He. by left. }
        apply elem_of_cons in Ho as [->|Ho]; [done|]. exfalso. by apply (Hxo o).
      * apply elem_of_app in Ho as [Ho|Ho].
        { apply find_id_Some in Hf as [Hf He]. exfalso. apply (Hn2 (o_id o)); [by apply elem_ids|].
          right. rewrite <-He. by apply elem_ids. }
        apply elem_of_cons in Ho as [->|Ho]; [done|].
        rewrite find_id_elem in Hf by done. by injection Hf as ->.
Qed.

Lemma side_spec s l o : o ∈ side s l <-> o_is_buy o = s /\ o ∈ l.
Proof. unfold side. by rewrite elem_of_list_filter. Qed.

Lemma elem_id_inj a o o' :
  NoDup (ids a) -> o ∈ a -> o' ∈ a -> o_id o = o_id o' -> o = o'.
Proof.
  intros Hnd Ho Ho' Heq. apply find_id_elem in Ho, Ho'; [|done|done]. congruence.
Qed.

(** the survivor function of [spec_step] for a market order *)
Definition survivor (is_buy : bool) (r : list order) (o : order) : option order :=
  if decide (o_is_buy o = is_buy) then Some o else find_id (o_id o) r.

Lemma market_sim b a shares is_buy :
  sim b a -> shares <= u64_max ->
  exists b' c f, execute_market_order b shares is_buy = Ret (b', (c, f)) /\
  sim b' (fst (spec_step a (Market shares is_buy))) /\
  snd (spec_step a (Market shares is_buy)) = OFills c f.
Proof.
  intros [Hnd Hmap Htree] Hsh. unfold execute_market_order.
  destruct (tree_ok_groups is_buy _ _ (Htree (negb is_buy))) as (gs & Ht & Hok & Hflat).
  assert (NoDup (ids (side (negb is_buy) a))) as Hnds by by apply NoDup_ids_filter.
  assert (NoDup (ids (flat gs))) as Hndf.
  { rewrite Hflat. unfold ids. by rewrite priority_perm. }
  assert (forall o, o ∈ flat gs <-> o_is_buy o = negb is_buy /\ o ∈ a) as Hel.
  { intros o. rewrite Hflat, priority_perm. apply side_spec. }
  assert (forall id, id ∈ ids (flat gs) <-> exists o, o ∈ a /\ o_id o = id /\ o_is_buy o = negb is_buy) as Hid.
  { intros id. split.
    - intros (o & Ho & He)%ids_elem. apply Hel in Ho as [??]. eauto.
    - intros (o & Ho & <- & Hb). apply elem_ids, Hel. done. }
  cbn [spec_step]. rewrite <-Hflat.
  destruct (consume shares (flat gs)) as [[f r] l] eqn:Ec.
  destruct (market_loop_spec is_buy gs (S (length (side_tree b (negb is_buy)))) shares
              (order_map b) [] f r l) as (m' & Hloop & Hm'); try done.
  { rewrite Ht. unfold tree_of, lv. destruct is_buy; rewrite ?rev_length, ?map_length. all: apply Nat.lt_succ_diag_r. }
  { apply Forall_forall. intros o Ho. rewrite Hmap, id_map_lookup.
    apply find_id_elem; [done|]. by apply Hel. }
  rewrite Ht in Hloop |- *. rewrite Hloop. cbn [bind app].
  do 3 eexists. split; [done|]. split; [|done]. cbn [fst].
  change (fun o => if decide (o_is_buy o = is_buy) then Some o else find_id (o_id o) r)
    with (survivor is_buy r).
  destruct (consume_omap _ _ _ _ _ Hndf Ec) as [Homap Hpres].
  assert (forall o o', survivor is_buy r o = Some o' -> o_id o' = o_id o) as Hsid.
  { intros o o'. unfold survivor. destruct (decide _); [by intros [= ->]|].
    by intros [_ ?]%find_id_Some. }
  split.
  - by apply NoDup_ids_omap.
  - rewrite order_map_set. cbn [order_map set_order_map]. apply map_eq. intros id.
    rewrite Hm', id_map_lookup, find_id_omap by done.
    rewrite Hmap, id_map_lookup.
    destruct (decide (id ∈ ids (flat gs))) as [Hin|Hin].
    + apply Hid in Hin as (o & Ho & <- & Hb). rewrite (find_id_elem o a) by done. simpl.
      unfold survivor. rewrite decide_False; [done|]. rewrite Hb. by destruct is_buy.
    + destruct (find_id id a) as [o|] eqn:E; [|done]. simpl.
      apply find_id_Some in E as [Ho He]. unfold survivor.
      rewrite decide_True; [done|]. destruct (decide (o_is_buy o = is_buy)); [done|].
      exfalso. apply Hin, Hid. exists o. split_and!; [done|done|].
      by destruct (o_is_buy o), is_buy.
  - assert (forall o, o ∈ a -> forall o', survivor is_buy r o = Some o' ->
              o_limit o' = o_limit o /\ o_is_buy o' = o_is_buy o) as Hpres'.
    { intros o Ho o'. unfold survivor. destruct (decide _) as [|Hb]; [by intros [= ->]|].
      apply Hpres. apply Hel. split; [|done]. by destruct (o_is_buy o), is_buy. }
    assert (forall s, side s (omap (survivor is_buy r) a) =
              omap (survivor is_buy r) (side s a)) as Hside.
    { intros s. clear -Hpres'. induction a as [|o a IH]; [done|].
      assert (side s (omap (survivor is_buy r) a) = omap (survivor is_buy r) (side s a)) as IH'.
      { apply IH. intros x Hx. apply Hpres'. by right. }
      unfold side in *. rewrite omap_cons_eq, filter_cons.
      destruct (survivor is_buy r o) as [o'|] eqn:E.
      - rewrite filter_cons, IH'.
        destruct (Hpres' o ltac:(left) o' E) as [_ ->].
        destruct (decide _); [rewrite omap_cons_eq; by rewrite E|done].
      - rewrite IH'. destruct (decide _); [rewrite omap_cons_eq; by rewrite E|done]. }
    intros s. rewrite side_tree_set. destruct (decide (s = negb is_buy)) as [->|Hne].
    2:{ rewrite side_tree_map, Hside. rewrite omap_id; [apply Htree|].
        apply Forall_forall. intros o [Hb _]%side_spec. unfold survivor.
        rewrite decide_True; [done|]. rewrite Hb. by destruct s, is_buy. }
    assert (flat (rest_groups shares gs) = r) as Hrest by by eapply rest_groups_flat.
    eapply tree_ok_ext; [|by apply groups_tree_ok, rest_groups_ok].
    rewrite Hrest. intros p. rewrite Hside.
    assert (forall x, o_is_buy x = negb is_buy -> survivor is_buy r x = find_id (o_id x) r) as Hsv.
    { intros x Hx. unfold survivor. rewrite decide_False; [done|]. rewrite Hx. by destruct is_buy. }
    assert (omap (survivor is_buy r) (side (negb is_buy) a)
            = omap (fun o => find_id (o_id o) r) (side (negb is_buy) a)) as ->.
    { assert (Forall (fun x => o_is_buy x = negb is_buy) (side (negb is_buy) a)) as HF.
      { apply Forall_forall. by intros x [? _]%side_spec. }
      clear -HF Hsv. induction HF as [|x l Hx Hl IH]; [done|]. rewrite !omap_cons_eq. by rewrite Hsv, IH. }
    assert (forall l, (forall o, o ∈ l -> o ∈ flat gs) ->
       atp p (omap (fun o => find_id (o_id o) r) l) = omap (fun o => find_id (o_id o) r) (atp p l)) as Hcomm.
    { clear -Hpres. intros l Hl. induction l as [|o l IH]; [done|].
      assert (atp p (omap (fun o => find_id (o_id o) r) l)
              = omap (fun o => find_id (o_id o) r) (atp p l)) as IH'.
      { apply IH. intros x Hx. apply Hl. by right. }
      rewrite omap_cons_eq, filter_cons. destruct (find_id (o_id o) r) as [o'|] eqn:E.
      - rewrite filter_cons, IH'. destruct (Hpres o o' (Hl o ltac:(left)) E) as [-> _].
        destruct (decide _); [rewrite omap_cons_eq; by rewrite E|done].
      - rewrite IH'. destruct (decide _); [rewrite omap_cons_eq; by rewrite E|done]. }
    rewrite Hcomm by (intros o Ho; apply Hel, side_spec; done).
    rewrite <-(priority_atp is_buy (side (negb is_buy) a) p), <-Hflat, <-Hcomm by done. by rewrite Homap.
Qed.

Lemma step_sim b a o :
  sim b a -> op_u64 o ->
  exists b' x, step b o = Ret (b', x) /\
  sim b' (fst (spec_step a o)) /\ snd (spec_step a o) = x.
Proof.
  intros Hsim Hop. destruct o as [id is_buy shares lim ts|id|shares is_buy]; cbn [step].
  - destruct (add_order b id is_buy shares lim ts) as [b' e] eqn:E.
    do 2 eexists. split; [done|]. by eapply add_sim.
  - destruct (cancel_sim b a id Hsim) as (b' & e & -> & H1 & H2).
    cbn [bind]. do 2 eexists. done.
  - destruct (market_sim b a shares is_buy Hsim Hop) as (b' & c & f & -> & H1 & H2).
    cbn [bind]. do 2 eexists. done.
Qed.

Lemma run_sim ops : forall b a,
  sim b a -> Forall op_u64 ops ->
  exists b', run b ops = Ret (b', snd (spec_run a ops)) /\ sim b' (fst (spec_run a ops)).
Proof.
  induction ops as [|o ops IH]; intros b a Hsim Hops; cbn [run spec_run].
  - exists b. done.
  - apply Forall_cons in Hops as [Ho Hops].
    destruct (step_sim b a o Hsim Ho) as (b' & x & -> & Hs & Hx). cbn [bind].
    destruct (spec_step a o) as [a' y]. cbn [fst snd] in *. subst y.
    destruct (IH b' a' Hs Hops) as (b'' & -> & Hs''). cbn [bind].
    destruct (spec_run a' ops) as [a'' xs]. cbn [fst snd] in *. eauto.
Qed.

(** ** Consequences on the concrete book *)

Lemma sorted_lookup_eq t1 : forall t2,
  sorted t1 -> sorted t2 -> (forall p, bt_get p t1 = bt_get p t2) -> t1 = t2.
Proof.
  unfold sorted. induction t1 as [|[k v] t1 IH]; intros t2 H1 H2 Heq.
  - destruct t2 as [|[k v] t2]; [done|]. specialize (Heq k). simpl in Heq.
    by rewrite N.eqb_refl in Heq.
  - destruct t2 as [|[k' v'] t2].
    { specialize (Heq k). simpl in Heq. by rewrite N.eqb_refl in Heq. }
    simpl in H1, H2. apply StronglySorted_inv in H1 as [H1 F1], H2 as [H2 F2].
    rewrite Forall_forall in F1, F2.
    assert (k = k') as <-.
    { pose proof (Heq k) as E1. pose proof (Heq k') as E2. simpl in E1, E2.
      rewrite N.eqb_refl in E1, E2.
      destruct (k =? k') eqn:E; nb; [done|].
      destruct (k' =? k) eqn:E'; nb; [done|].
      assert (k ∈ map fst t2) as K1 by (apply bt_get_in_iff; rewrite <-E1; eauto).
      assert (k' ∈ map fst t1) as K2 by (apply bt_get_in_iff; rewrite E2; eauto).
      apply F2 in K1. apply F1 in K2. lia. }
    pose proof (Heq k) as E1. simpl in E1. rewrite N.eqb_refl in E1. injection E1 as <-.
    f_equal. apply IH; [done|done|]. intros p. specialize (Heq p). simpl in Heq.
    destruct (p =? k) eqn:E; nb; [|done]. subst p.
    rewrite !bt_get_notin; [done| |].
    + intros Hin%F2. lia.
    + intros Hin%F1. lia.
Qed.

Lemma sim_unique b b' a : sim b a -> sim b' a -> b = b'.
Proof.
  intros [_ M1 T1] [_ M2 T2]. destruct b as [t u m], b' as [t' u' m']; simpl in *.
  assert (t = t') as ->.
  { destruct (T1 true) as [S1 G1], (T2 true) as [S2 G2]. simpl in *.
    apply sorted_lookup_eq; try done. intros p. by rewrite G1, G2. }
  assert (u = u') as ->.
  { destruct (T1 false) as [S1 G1], (T2 false) as [S2 G2]. simpl in *.
    apply sorted_lookup_eq; try done. intros p. by rewrite G1, G2. }
  congruence.
Qed.

Lemma reachable_sim b : reachable b -> exists a, sim b a.
Proof.
  intros (ops & outs & Hops & Hrun).
  destruct (run_sim ops book_new [] sim_new Hops) as (b' & Hr & Hs).
  rewrite Hrun in Hr. injection Hr as ->. eauto.
Qed.

Lemma filter_and_side s p (a : list order) :
  filter (fun o => o_is_buy o = s /\ o_limit o = p) a = atp p (side s a).
Proof.
  unfold side. induction a as [|o a IH]; [done|]. rewrite !filter_cons.
  destruct (decide (o_is_buy o = s)).
  - rewrite filter_cons. destruct (decide (o_limit o = p)).
    + rewrite decide_True by done. by rewrite IH.
    + rewrite decide_False by naive_solver. done.
  - rewrite decide_False by naive_solver. done.
Qed.

Lemma sim_shows b a : sim b a -> shows b a.
Proof.
  intros [Hnd Hmap Htree]. split; [done|]. split; [|split].
  - intros id o. rewrite Hmap, id_map_lookup. split; [apply find_id_Some|].
    intros [Ho <-]. by apply find_id_elem.
  - intros s p l Hin. destruct (Htree s) as [Hs Hg].
    apply bt_get_elem in Hin; [|by apply sorted_NoDup]. rewrite Hg in Hin.
    unfold level in Hin. destruct (atp p (side s a)) as [|x q]; [done|].
    by injection Hin as <-.
  - intros s p. unfold queue. rewrite (proj2 (Htree s)), filter_and_side.
    unfold level. by destruct (atp p (side s a)).
Qed.

Lemma reachable_step b o : reachable b -> op_u64 o ->
  exists b' x, step b o = Ret (b', x) /\ reachable b'.
Proof.
  intros Hr Ho. pose proof Hr as (ops & outs & Hops & Hrun).
  destruct (reachable_sim b Hr) as [a Hs].
  destruct (step_sim b a o Hs Ho) as (b' & x & Hstep & _).
  exists b', x. split; [done|]. exists (ops ++ [o]), (outs ++ [x]).
  split; [apply Forall_app; split; [done|by constructor]|].
  clear -Hrun Hstep. revert outs Hrun. generalize book_new as b0.
  induction ops as [|o1 ops IH]; intros b0 outs Hrun; simpl in *.
  - injection Hrun as -> <-. rewrite Hstep. done.
  - apply bind_Ret_inv in Hrun as ([b1 x1] & H1 & Hrun). rewrite H1. cbn [bind].
    apply bind_Ret_inv in Hrun as ([b2 xs] & H2 & Hrun). injection Hrun as -> <-.
    by rewrite (IH _ _ H2).
Qed.

Lemma elem_queue b a s p id :
  shows b a -> id ∈ queue b s p <->
  exists o, order_map b !! id = Some o /\ o_is_buy o = s /\ o_limit o = p.
Proof.
  intros (Hnd & Hmap & _ & Hq). rewrite Hq. split.
  - intros (o & [[Hb Hl] Ho]%elem_of_list_filter & <-)%ids_elem. exists o.
    split_and!; [by apply Hmap|done|done].
  - intros (o & Ho & Hb & Hl). apply Hmap in Ho as [Ho <-]. apply elem_ids.
    apply elem_of_list_filter. done.
Qed.

Lemma consistent b : reachable b ->
  (forall s p id, id ∈ queue b s p <->
     exists o, order_map b !! id = Some o /\ o_is_buy o = s /\ o_limit o = p) /\
  (forall s p, NoDup (queue b s p)) /\
  (forall id o, order_map b !! id = Some o -> o_id o = id) /\
  (forall s p l, (p, l) ∈ side_tree b s -> l_price l = p /\ l_orders l <> []) /\
  (forall s, StronglySorted N.lt (map fst (side_tree b s))).
Proof.
  intros Hr. destruct (reachable_sim b Hr) as [a Hsim]. pose proof (sim_shows b a Hsim) as Hs.
  pose proof Hs as (Hnd & Hmap & Hlev & Hq). split_and!.
  - intros s p id. by eapply elem_queue.
  - intros s p. rewrite Hq. by apply NoDup_ids_filter.
  - intros id o Ho. by apply Hmap in Ho as [_ ?].
  - done.
  - intros s. apply (sim_tree _ _ Hsim s).
Qed.

Lemma ret_out_inj {A} (x y : A) : Ret x = Ret y -> x = y.
Proof. by intros [= ->]. Qed.

Lemma refinement ops : Forall op_u64 ops ->
  exists b, run book_new ops = Ret (b, snd (spec_run [] ops)) /\
            shows b (fst (spec_run [] ops)).
Proof.
  intros Hops. destruct (run_sim ops book_new [] sim_new Hops) as (b & Hr & Hs).
  exists b. split; [done|]. by apply sim_shows.
Qed.

Lemma precedes_elem l x y : precedes l x y -> x ∈ l /\ y ∈ l.
Proof. intros (l1 & l2 & l3 & ->). set_solver. Qed.

Lemma precedes_filter (P : order -> Prop) `{forall x, Decision (P x)} (l : list order) x y :
  P x -> P y -> precedes l x y -> precedes (filter P l) x y.
Proof.
  intros Px Py (l1 & l2 & l3 & ->). exists (filter P l1), (filter P l2), (filter P l3).
  rewrite filter_app, filter_cons_True by done. by rewrite filter_app, filter_cons_True.
Qed.

Lemma precedes_cons l z x y : precedes (z :: l) x y <-> (x = z /\ y ∈ l) \/ precedes l x y.
Proof.
  split.
  - intros (l1 & l2 & l3 & Heq). destruct l1 as [|w l1]; simpl in Heq; injection Heq as -> ->.
    + left. set_solver.
    + right. by exists l1, l2, l3.
  - intros [[-> Hy]|(l1 & l2 & l3 & ->)].
    + apply elem_of_list_split in Hy as (l2 & l3 & ->). by exists [], l2, l3.
    + by exists (z :: l1), l2, l3.
Qed.

Lemma precedes_filter_inv (P : order -> Prop) `{forall x, Decision (P x)} (l : list order) x y :
  precedes (filter P l) x y -> precedes l x y.
Proof.
  induction l as [|z l IH].
  - intros (l1 & l2 & l3 & Heq). by destruct l1.
  - rewrite filter_cons. destruct (decide (P z)).
    + rewrite !precedes_cons. intros [[-> Hy]|Hp]; [|by right; apply IH].
      left. split; [done|]. by apply elem_of_list_filter in Hy as [_ ?].
    + rewrite precedes_cons. intros Hp. right. by apply IH.
Qed.

(** the queue a market order sees: same orders, best price first, and first
    come first served at one price *)
Lemma priority_spec s l :
  priority s l ≡ₚ l /\
  (forall x y, precedes (priority s l) x y -> ~ strictly_better s (o_limit y) (o_limit x)) /\
  (forall x y, o_limit x = o_limit y -> precedes (priority s l) x y <-> precedes l x y).
Proof.
  split; [apply priority_perm|]. split.
  - intros x y (l1 & l2 & l3 & Heq). pose proof (priority_sorted s l) as Hs.
    assert (good s x y) as Hg.
    { eapply (elem_of_StronglySorted_app (good s) (l1 ++ [x]) (l2 ++ y :: l3) x y).
      - rewrite <-app_assoc. simpl. by rewrite <-Heq.
      - set_solver.
      - set_solver. }
    unfold good, at_least_as_good, strictly_better in *. destruct s; nb; lia.
  - intros x y Hxy. split; intros Hp.
    + apply (precedes_filter (fun o => o_limit o = o_limit x)) in Hp; [|done|done].
      rewrite priority_atp in Hp. by apply precedes_filter_inv in Hp.
    + apply (precedes_filter (fun o => o_limit o = o_limit x)) in Hp; [|done|done].
      rewrite <-(priority_atp s) in Hp. by apply precedes_filter_inv in Hp.
Qed.

Lemma market_shape b shares is_buy :
  reachable b -> shares <= u64_max ->
  exists a q filled touched rest b' c f,
    shows b a /\
    execute_market_order b shares is_buy = Ret (b', (c, f)) /\
    (* q: the opposite side in price-time order *)
    q ≡ₚ filter (fun o => o_is_buy o = negb is_buy) a /\
    (forall x y, precedes q x y -> ~ strictly_better is_buy (o_limit y) (o_limit x)) /\
    (forall x y, o_limit x = o_limit y -> precedes q x y ->
       precedes a x y) /\
    (* a prefix of it is consumed, at most one more order is touched *)
    q = filled ++ from_option (fun xd => [fst xd]) [] touched ++ rest /\
    match touched with
    | None => f = per_level (map (fun o => (o_limit o, o_shares o)) filled)
    | Some (x, d) => 0 < d < o_shares x /\ c = true /\
        f = per_level (map (fun o => (o_limit o, o_shares o)) filled ++ [(o_limit x, d)])
    end /\
    (c = true \/ rest = []) /\
    (* afterwards the book holds exactly the others *)
    shows b' (omap (fun o =>
      if decide (o ∈ filled) then None
      else match touched with
           | Some (x, d) => if decide (o_id o = o_id x)
                            then Some (set_shares o (o_shares o - d)) else Some o
           | None => Some o
           end) a).
Proof.
  intros Hr Hsh. destruct (reachable_sim b Hr) as [a Hsim].
  destruct (market_sim b a shares is_buy Hsim Hsh) as (b' & c & f & Hex & Hsim' & Hout).
  cbn [spec_step] in Hsim', Hout.
  destruct (priority_spec is_buy (side (negb is_buy) a)) as (Hperm & Hbest & Hfifo).
  pose proof (sim_nodup _ _ Hsim) as Hnd.
  assert (NoDup (ids (priority is_buy (side (negb is_buy) a)))) as Hndq.
  { unfold ids. rewrite Hperm. by apply NoDup_ids_filter. }
  assert (forall o, o ∈ priority is_buy (side (negb is_buy) a) <-> o_is_buy o = negb is_buy /\ o ∈ a) as Hel.
  { intros o. rewrite Hperm. apply side_spec. }
  set (q := priority is_buy (side (negb is_buy) a)) in *.
  destruct (consume shares q) as [[fl r] l] eqn:Ec. cbn [fst snd] in *.
  injection Hout as Hc Hf. subst c f.
  pose proof (consume_rest_nil _ _ _ _ _ Ec) as Hrest.
  assert (forall o, o ∈ a -> o_is_buy o <> is_buy -> o ∈ q) as Haq.
  { intros o Ho Hb. apply Hel. split; [|done]. by destruct (o_is_buy o), is_buy. }
  apply consume_shape in Ec as [(dn & Hq & Hfl)|(dn & x & rest & d & Hq & Hr' & Hd & Hl & Hfl)].
  - exists a, q, dn, None, r, b', (l =? 0), (per_level fl).
    split; [by apply sim_shows|]. split; [done|]. split; [done|]. split; [done|].
    split. { intros x y Hxy Hp. apply Hfifo in Hp; [|done]. by apply precedes_filter_inv in Hp. }
    split; [done|]. split; [by rewrite Hfl|].
    split. { destruct (l =? 0) eqn:E; [by left|right]. nb. by apply Hrest. }
    apply sim_shows in Hsim'. revert Hsim'.
    match goal with |- shows _ ?A -> shows _ ?B => assert (A = B) as ->; [|done] end.
    rewrite Hq in Hndq. rewrite ids_app in Hndq. apply NoDup_app in Hndq as (_ & Hdis & Hndr).
    apply list_omap_ext, Forall_Forall2_diag, Forall_forall. intros o Ho.
    destruct (decide (o_is_buy o = is_buy)) as [Hb|Hb].
    + rewrite decide_False; [done|]. intros Hdn.
      assert (o ∈ q) as [Hb' _]%Hel by (rewrite Hq; set_solver).
      rewrite Hb' in Hb. by destruct is_buy.
    + specialize (Haq o Ho Hb). rewrite Hq in Haq. destruct (decide (o ∈ dn)) as [Hdn|Hdn].
      * apply find_id_None. apply Hdis. by apply elem_ids.
      * apply elem_of_app in Haq as [?|Hor]; [done|]. by apply find_id_elem.
  - exists a, q, dn, (Some (x, d)), rest, b', (l =? 0), (per_level fl).
    split; [by apply sim_shows|]. split; [done|]. split; [done|]. split; [done|].
    split. { intros y z Hxy Hp. apply Hfifo in Hp; [|done]. by apply precedes_filter_inv in Hp. }
    split; [done|]. split; [split; [done|]; split; [by rewrite Hl|by rewrite Hfl]|].
    split; [left; by rewrite Hl|].
    apply sim_shows in Hsim'. revert Hsim'.
    match goal with |- shows _ ?A -> shows _ ?B => assert (A = B) as ->; [|done] end.
    rewrite Hq in Hndq. rewrite ids_app in Hndq. apply NoDup_app in Hndq as (_ & Hdis & Hndr).
    unfold ids in Hndr; simpl in Hndr. apply NoDup_cons in Hndr as [Hx Hndr]. fold (ids rest) in *.
    assert (x ∈ q) as Hxq by (rewrite Hq; set_solver).
    apply list_omap_ext, Forall_Forall2_diag, Forall_forall. intros o Ho.
    destruct (decide (o_is_buy o = is_buy)) as [Hb|Hb].
    + rewrite decide_False. 2:{ intros Hdn.
        assert (o ∈ q) as [Hb' _]%Hel by (rewrite Hq; set_solver).
        rewrite Hb' in Hb. by destruct is_buy. }
      rewrite decide_False; [done|]. intros Hid.
      apply Hel in Hxq as [Hb' Hxa].
      assert (o = x) as -> by (by apply (elem_id_inj a)). rewrite Hb in Hb'. by destruct is_buy.
    + specialize (Haq o Ho Hb). rewrite Hq in Haq. rewrite Hr', find_id_cons. cbn [o_id set_shares].
      destruct (decide (o ∈ dn)) as [Hdn|Hdn].
      * assert (o_id o ∉ ids (x :: rest)) as Hn by (apply Hdis; by apply elem_ids).
        unfold ids in Hn; simpl in Hn. apply not_elem_of_cons in Hn as [Hn1 Hn2].
        rewrite decide_False by done. by apply find_id_None.
      * destruct (decide (o_id x = o_id o)) as [Hid|Hid].
        { rewrite decide_True by done. apply Hel in Hxq as [Hb' Hxa].
          assert (o = x) as -> by (by apply (elem_id_inj a)). done. }
        rewrite decide_False by done.
        apply elem_of_app in Haq as [?|Haq]; [done|].
        apply elem_of_cons in Haq as [->|Haq]; [done|]. by apply find_id_elem.
Qed.

(** ** Conservation *)
Lemma total_shares_perm l l' : l ≡ₚ l' -> total_shares l = total_shares l'.
Proof. induction 1; simpl; lia. Qed.

Lemma resting_perm b a s : sim b a -> resting b s ≡ₚ side s a.
Proof.
  intros [Hnd Hmap _]. unfold resting, side.
  assert (map snd (map_to_list (order_map b)) ≡ₚ a) as Hp; [|by rewrite Hp].
  rewrite Hmap. unfold id_map. rewrite map_to_list_to_map.
  - rewrite map_map. simpl. by rewrite map_id.
  - rewrite <-list_fmap_compose.
    replace (fst ∘ (fun o => (o_id o, o)) <$> a) with (ids a); [done|]. done.
Qed.

Lemma consume_rest_cases left q f r l :
  consume left q = (f, r, l) -> total_filled f = N.min left (total_shares q).
Proof.
  intros Hc. pose proof (consume_total _ _ _ _ _ Hc) as [H1 H2].
  destruct (decide (l = 0)) as [->|Hl]; [lia|].
  rewrite (consume_rest_nil _ _ _ _ _ Hc Hl) in H2. simpl in H2. lia.
Qed.

Lemma per_level_prices f p : p ∈ map fst (per_level f) -> p ∈ map fst f.
Proof.
  revert p. induction f as [|[p s] f IH]; [done|]. intros x. simpl.
  destruct (per_level f) as [|[p' s'] g]; simpl in *; [set_solver|].
  destruct (p =? p') eqn:E; nb; simpl; [subst|]; set_solver.
Qed.

Lemma per_level_sorted s q left f r l :
  StronglySorted (good s) q -> consume left q = (f, r, l) ->
  StronglySorted (strictly_better s) (map fst (per_level f)).
Proof.
  intros Hs Hc.
  assert (StronglySorted (fun x y => at_least_as_good s x y = true) (map fst f)) as Hf.
  { assert (exists q', StronglySorted (good s) q' /\ map fst f = map o_limit q') as (q' & Hq' & ->).
    { apply consume_shape in Hc as [(dn & -> & ->)|(dn & x & rest & d & -> & -> & Hd & -> & ->)].
      - exists dn. split; [by eapply StronglySorted_app_inv_l|]. by rewrite map_map.
      - exists (dn ++ [x]). split.
        + change (dn ++ x :: rest) with (dn ++ [x] ++ rest) in Hs. rewrite app_assoc in Hs.
          by eapply StronglySorted_app_inv_l.
        + rewrite !map_app, map_map. done. }
    induction Hq' as [|x l0 Hl IH Hx]; [constructor|]. simpl. constructor; [done|].
    apply Forall_map. eapply Forall_impl; [exact Hx|]. done. }
  clear Hs Hc. 
  induction f as [|[p n] f IH]; [constructor|]. simpl in Hf.
  apply StronglySorted_inv in Hf as [Hf Hp]. rewrite Forall_forall in Hp.
  pose proof (per_level_prices f) as Hsub'.
  specialize (IH Hf). simpl.
  destruct (per_level f) as [|[p' n'] g] eqn:Eg; [repeat constructor|].
  destruct (p =? p') eqn:E; nb; [by subst p'|].
  simpl in *. apply StronglySorted_inv in IH as [IH1 IH2].
  pose proof (Hp p' (Hsub' p' ltac:(left))) as Hpp.
  assert (strictly_better s p p') as Hsb.
  { unfold at_least_as_good in Hpp. unfold strictly_better. destruct s; nb; lia. }
  constructor; [by constructor|]. constructor; [done|].
  eapply Forall_impl; [exact IH2|]. intros z Hz. simpl in *.
  unfold strictly_better in *. destruct s; lia.
Qed.

Lemma conservation b shares is_buy :
  reachable b -> shares <= u64_max ->
  exists b' c f,
    execute_market_order b shares is_buy = Ret (b', (c, f)) /\
    total_filled f = N.min shares (total_shares (resting b (negb is_buy))) /\
    (c = true <-> total_filled f = shares) /\
    total_shares (resting b' (negb is_buy)) + total_filled f
      = total_shares (resting b (negb is_buy)) /\
    resting b' is_buy ≡ₚ resting b is_buy /\
    side_tree b' is_buy = side_tree b is_buy /\
    StronglySorted (strictly_better is_buy) (map fst f).
Proof.
  intros Hr Hsh. destruct (reachable_sim b Hr) as [a Hsim].
  destruct (market_sim b a shares is_buy Hsim Hsh) as (b' & c & f & Hex & Hsim' & Hout).
  exists b', c, f. split; [done|].
  assert (side_tree b' is_buy = side_tree b is_buy) as Htree.
  { unfold execute_market_order in Hex. apply bind_Ret_inv in Hex as ([[t m] o] & _ & Hex).
    injection Hex as <- _. by destruct is_buy. }
  rewrite (total_shares_perm _ _ (resting_perm b a (negb is_buy) Hsim)).
  rewrite (total_shares_perm _ _ (resting_perm b' _ (negb is_buy) Hsim')).
  rewrite (resting_perm b a is_buy Hsim), (resting_perm b' _ is_buy Hsim').
  cbn [spec_step] in *.
  pose proof (priority_perm is_buy (side (negb is_buy) a)) as Hperm.
  pose proof (priority_sorted is_buy (side (negb is_buy) a)) as Hsorted.
  pose proof (sim_nodup _ _ Hsim) as Hnd.
  assert (NoDup (ids (priority is_buy (side (negb is_buy) a)))) as Hndq.
  { unfold ids. rewrite Hperm. by apply NoDup_ids_filter. }
  assert (forall o, o ∈ priority is_buy (side (negb is_buy) a) <-> o_is_buy o = negb is_buy /\ o ∈ a) as Hel.
  { intros o. rewrite Hperm. apply side_spec. }
  rewrite <-(total_shares_perm _ _ Hperm).
  assert (priority is_buy (side (negb is_buy) a) ≡ₚ side (negb is_buy) a) as Hperm' by done.
  set (q := priority is_buy (side (negb is_buy) a)) in *.
  destruct (consume shares q) as [[fl r] l] eqn:Ec. cbn [fst snd] in *.
  injection Hout as Hc Hf. subst c f.
  destruct (consume_total _ _ _ _ _ Ec) as [Ht1 Ht2].
  pose proof (consume_rest_cases _ _ _ _ _ Ec) as Hmin.
  rewrite per_level_total.
  destruct (consume_omap _ _ _ _ _ Hndq Ec) as [Homap Hpres].
  change (fun o => if decide (o_is_buy o = is_buy) then Some o else find_id (o_id o) r)
    with (survivor is_buy r).
  assert (forall s, side s (omap (survivor is_buy r) a) =
              omap (survivor is_buy r) (side s a)) as Hside.
  { assert (forall o, o ∈ a -> forall o', survivor is_buy r o = Some o' ->
              o_is_buy o' = o_is_buy o) as Hpres'.
    { intros o Ho o'. unfold survivor. destruct (decide _) as [|Hb]; [by intros [= ->]|].
      intros Hf. apply Hpres in Hf as [_ ?]; [done|]. apply Hel. split; [|done].
      by destruct (o_is_buy o), is_buy. }
    intros s. clear -Hpres'. induction a as [|o a IH]; [done|].
    assert (side s (omap (survivor is_buy r) a) = omap (survivor is_buy r) (side s a)) as IH'.
    { apply IH. intros x Hx. apply Hpres'. by right. }
    unfold side in *. rewrite omap_cons_eq, filter_cons.
    destruct (survivor is_buy r o) as [o'|] eqn:E.
    - rewrite filter_cons, IH'. rewrite (Hpres' o ltac:(left) o' E).
      destruct (decide _); [rewrite omap_cons_eq; by rewrite E|done].
    - rewrite IH'. destruct (decide _); [rewrite omap_cons_eq; by rewrite E|done]. }
  assert (side (negb is_buy) (omap (survivor is_buy r) a) ≡ₚ r) as Hopp.
  { rewrite Hside. rewrite <-Homap at 2.
    rewrite <-Hperm.
    assert (omap (survivor is_buy r) q = omap (fun o => find_id (o_id o) r) q) as ->; [|done].
    apply list_omap_ext, Forall_Forall2_diag, Forall_forall. intros o [Hb _]%Hel.
    unfold survivor. rewrite decide_False; [done|]. rewrite Hb. by destruct is_buy. }
  split; [done|]. split.
  { rewrite N.eqb_eq. lia. }
  split. { rewrite (total_shares_perm _ _ Hopp). lia. }
  split.
  { rewrite Hside, omap_id; [done|]. apply Forall_forall. intros o [Hb _]%side_spec.
    unfold survivor. by rewrite decide_True. }
  split; [done|]. by eapply per_level_sorted.
Qed.

(** ** Failed and inverse operations *)
Lemma add_cases b id is_buy shares lim ts :
  reachable b ->
  let '(b', e) := add_order b id is_buy shares lim ts in
  if decide (is_Some (order_map b !! id))
  then b' = b /\ e = Some (ExistingIdError id)
  else e = None /\
       order_map b' = <[id := Order id is_buy shares lim ts]> (order_map b) /\
       forall s p, queue b' s p =
         queue b s p ++ (if decide (s = is_buy /\ p = lim) then [id] else []).
Proof.
  intros Hr. destruct (add_order b id is_buy shares lim ts) as [b' e] eqn:E.
  unfold add_order in E. destruct (order_map b !! id) as [o|] eqn:Eo.
  - rewrite decide_True by eauto. by injection E as <- <-.
  - rewrite decide_False by (by intros []). injection E as <- <-. split; [done|].
    rewrite order_map_set. split; [done|]. intros s p. unfold queue.
    rewrite side_tree_set, side_tree_map.
    destruct (decide (s = is_buy)) as [->|Hne].
    2:{ rewrite decide_False by naive_solver. by rewrite side_tree_map, app_nil_r. }
    destruct (bt_get lim (side_tree b is_buy)) as [l|] eqn:El; rewrite bt_get_insert;
      (destruct (decide (p = lim)) as [->|Hp];
       [rewrite decide_True by done; by rewrite El
       |rewrite decide_False by naive_solver; by rewrite app_nil_r]).
Qed.

Lemma cancel_cases b id :
  reachable b ->
  exists b' e, cancel_order b id = Ret (b', e) /\
  if decide (is_Some (order_map b !! id))
  then e = None /\ order_map b' = delete id (order_map b) /\
       forall s p, queue b' s p = filter (fun x => x <> id) (queue b s p)
  else b' = b /\ e = Some (NonExistingIdError id).
Proof.
  intros Hr. destruct (reachable_sim b Hr) as [a Hsim].
  destruct (cancel_sim b a id Hsim) as (b' & e & Hc & Hsim' & Hout).
  exists b', e. split; [done|]. cbn [spec_step] in *.
  rewrite (sim_map _ _ Hsim), id_map_lookup.
  destruct (decide (id ∈ ids a)) as [Hin|Hin].
  - rewrite decide_True.
    2:{ destruct (find_id id a) eqn:E; [eauto|]. by apply find_id_None in E. }
    cbn [fst snd] in *. injection Hout as <-. split; [done|]. split.
    + rewrite (sim_map _ _ Hsim'). apply map_eq. intros i.
      rewrite id_map_lookup, find_id_filter_ne.
      destruct (decide (i = id)) as [->|]; [by rewrite lookup_delete|].
      rewrite lookup_delete_ne by done. by rewrite id_map_lookup.
    + intros s p. apply sim_shows in Hsim as (_ & _ & _ & Hq), Hsim' as (_ & _ & _ & Hq').
      rewrite Hq, Hq', <-ids_filter_ne. by rewrite filter_comm.
  - rewrite decide_False. 2:{ apply find_id_None in Hin. rewrite Hin. by intros []. }
    cbn [fst snd] in *. injection Hout as <-. split; [|done].
    unfold cancel_order in Hc. rewrite (sim_map _ _ Hsim), id_map_lookup in Hc.
    apply find_id_None in Hin. rewrite Hin in Hc. by injection Hc as <-.
Qed.

Lemma add_cancel b id is_buy shares lim ts :
  reachable b -> order_map b !! id = None ->
  cancel_order (fst (add_order b id is_buy shares lim ts)) id = Ret (b, None).
Proof.
  intros Hr Hid. destruct (reachable_sim b Hr) as [a Hsim].
  destruct (add_order b id is_buy shares lim ts) as [b1 e] eqn:E. cbn [fst].
  destruct (add_sim b a id is_buy shares lim ts b1 e Hsim E) as [Hsim1 _].
  cbn [spec_step] in Hsim1. rewrite (sim_map _ _ Hsim), id_map_lookup in Hid.
  apply find_id_None in Hid. rewrite decide_False in Hsim1 by done. cbn [fst] in Hsim1.
  destruct (cancel_sim b1 _ id Hsim1) as (b2 & e2 & Hc & Hsim2 & Hout).
  cbn [spec_step] in Hsim2, Hout. rewrite decide_True in Hsim2, Hout.
  2,3: rewrite ids_app; apply elem_of_app; right; unfold ids; simpl; by left.
  cbn [fst snd] in *. injection Hout as <-. rewrite Hc. do 2 f_equal.
  eapply sim_unique; [exact Hsim2|]. rewrite filter_app.
  assert (filter (fun o => o_id o <> id) [Order id is_buy shares lim ts] = []) as ->.
  { rewrite filter_cons_False; [done|]. simpl. by intros ?. }
  rewrite app_nil_r.
  assert (filter (fun o => o_id o <> id) a = a) as ->; [|done].
  clear -Hid. induction a as [|x a IH]; [done|].
  apply not_elem_of_cons in Hid as [H1 H2]. rewrite filter_cons_True by done.
  f_equal. by apply IH.
Qed.

Lemma crossing :
  exists ops b outs, Forall op_u64 ops /\ run book_new ops = Ret (b, outs) /\
  exists i j x y, order_map b !! i = Some x /\ order_map b !! j = Some y /\
    o_is_buy x = true /\ o_is_buy y = false /\ 0 < o_shares x /\ 0 < o_shares y /\
    o_limit y < o_limit x.
Proof.
  exists [Add 1 false 10 100 0; Add 2 true 10 105 0].
  eexists _, _. split; [repeat constructor; done|]. split; [vm_compute; reflexivity|].
  exists 2, 1. eexists _, _. split; [vm_compute; reflexivity|].
  split; [vm_compute; reflexivity|]. done.
Qed.
