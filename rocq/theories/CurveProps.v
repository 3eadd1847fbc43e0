(** C22, C23: curves. *)
From Coq Require Import Reals List Bool ZArith Lra Lia Sorted Permutation.
From Verif Require Import Res InterpModel InterpProofs InterpProps.
Import ListNotations.
Open Scope R_scope.

Definition lt_key (a b : Z * R) : Prop := (fst a < fst b)%Z.
Definition wfn (n : nodes) : Prop := StronglySorted lt_key n.

Lemma node_insert_In n d r : forall p, In p (node_insert n d r) -> p = (d, r) \/ In p n.
Proof.
  induction n as [|[k v] n IH]; intros p H; simpl in H.
  - destruct H as [H|[]]; auto.
  - destruct (Z.ltb_spec d k).
    + destruct H as [H|H]; auto.
    + destruct (Z.eqb_spec d k) as [->|Ne].
      * destruct H as [H|H]; [auto|right; right; exact H].
      * destruct H as [H|H]; [right; left; exact H|]. apply IH in H as [H|H]; auto. right; right; exact H.
Qed.
Lemma node_insert_wf n d r : wfn n -> wfn (node_insert n d r).
Proof.
  unfold wfn. induction 1 as [|[k v] n S IH F]; simpl; [repeat constructor|].
  rewrite Forall_forall in F. unfold lt_key in F. cbn [fst] in F.
  destruct (Z.ltb_spec d k).
  - constructor; [constructor; [exact S|apply Forall_forall; exact F]|]. constructor; [exact H|].
    apply Forall_forall. intros p Hp. apply F in Hp. unfold lt_key. cbn [fst]. lia.
  - destruct (Z.eqb_spec d k) as [->|Ne].
    + constructor; [exact S|]. apply Forall_forall. exact F.
    + constructor; [exact IH|]. apply Forall_forall. intros p Hp. apply node_insert_In in Hp as [->|Hp].
      * unfold lt_key. cbn [fst]. lia.
      * apply F. exact Hp.
Qed.
Lemma node_get_In n : wfn n -> forall d r, node_get n d = Some r <-> In (d, r) n.
Proof.
  unfold wfn. induction 1 as [|[k v] n S IH F]; intros d r; simpl; [split; [discriminate|tauto]|].
  rewrite Forall_forall in F. unfold lt_key in F. cbn [fst] in F.
  destruct (Z.eqb_spec k d) as [->|Ne].
  - split; [intros E; injection E as ->; left; reflexivity|].
    intros [E|H]; [congruence|]. apply F in H. cbn [fst] in H. lia.
  - rewrite IH. split; [auto|]. intros [E|H]; [congruence|exact H].
Qed.
Lemma node_get_insert n d r d' : wfn n ->
  node_get (node_insert n d r) d' = if Z.eqb d d' then Some r else node_get n d'.
Proof.
  unfold wfn. induction 1 as [|[k v] n S IH F]; simpl.
  - destruct (Z.eqb d d'); reflexivity.
  - rewrite Forall_forall in F. unfold lt_key in F. cbn [fst] in F.
    destruct (Z.ltb_spec d k); [simpl; destruct (Z.eqb_spec d d'); reflexivity|].
    destruct (Z.eqb_spec d k) as [->|Ne].
    + simpl. destruct (Z.eqb_spec k d'); reflexivity.
    + simpl. destruct (Z.eqb_spec k d') as [->|Ne'].
      * destruct (Z.eqb_spec d d'); [contradiction|reflexivity].
      * apply IH.
Qed.

(** everything the API can build *)
Inductive cbuilt : curve -> Prop :=
| cb_new dates rates m c : curve_new dates rates m = Some c -> cbuilt c
| cb_from n m c : wfn n -> curve_from_nodes n m = Some c -> cbuilt c   (* a BTreeMap is sorted by type *)
| cb_set c d r : cbuilt c -> cbuilt (set_rate c d r)
| cb_ins c d c' o : cbuilt c -> get_rate_and_insert c d = Ret (c', o) -> cbuilt c'
| cb_shift c s : cbuilt c -> cbuilt (shift c s).

Lemma fold_insert_wf l : forall n, wfn n -> wfn (fold_left (fun n p => node_insert n (fst p) (snd p)) l n).
Proof. induction l as [|p l IH]; intros n W; simpl; [exact W|]. apply IH, node_insert_wf, W. Qed.
Lemma map_wf (f : R -> R) n : wfn n -> wfn (map (fun p => (fst p, f (snd p))) n).
Proof.
  unfold wfn. induction 1 as [|p n S IH F]; simpl; constructor; [exact IH|].
  rewrite Forall_forall in F. apply Forall_forall. intros q Hq. apply in_map_iff in Hq as (q' & <- & Hq).
  apply F in Hq. exact Hq.
Qed.

Lemma cbuilt_wf c : cbuilt c -> wfn (cnodes c).
Proof.
  induction 1 as [dates rates m c H|n m c W H|c d r B IH|c d c' o B IH H|c s B IH].
  - unfold curve_new in H. destruct (interp_new _ _); [|discriminate]. injection H as <-.
    apply fold_insert_wf. constructor.
  - unfold curve_from_nodes in H. destruct (interp_new _ _); [|discriminate]. injection H as <-. exact W.
  - apply node_insert_wf; exact IH.
  - unfold get_rate_and_insert in H. destruct (node_get (cnodes c) d).
    + injection H as <- _. exact IH.
    + apply bind_Ret_inv in H as (o' & _ & H). destruct o'; injection H as <- _; [apply node_insert_wf|]; exact IH.
  - apply (map_wf (fun r => r + s)). exact IH.
Qed.

(** ** C22 *)

(** reading a node *)
Theorem curve_get_node : forall c d r, cbuilt c -> In (d, r) (cnodes c) -> get_rate c d = Ret (Some r).
Proof.
  intros c d r B H. unfold get_rate. apply (node_get_In _ (cbuilt_wf c B)) in H. rewrite H. reflexivity.
Qed.
Print Assumptions curve_get_node.

(** a write is read back, and no other date, node or not, is affected *)
Theorem curve_set_get : forall c d r d', cbuilt c ->
  get_rate (set_rate c d r) d' = if Z.eqb d d' then Ret (Some r) else get_rate c d'.
Proof.
  intros c d r d' B. unfold get_rate, set_rate. cbn [cnodes cmethod cinterp].
  rewrite node_get_insert by (apply cbuilt_wf; exact B). destruct (Z.eqb d d'); reflexivity.
Qed.
Print Assumptions curve_set_get.

(** any sequence of writes: the last one to a date is the one read *)
Fixpoint last_write (l : list (Z * R)) (d : Z) : option R :=
  match l with
  | [] => None
  | (k, r) :: l' => match last_write l' d with Some v => Some v | None => if Z.eqb k d then Some r else None end
  end.
Theorem curve_set_rates_get : forall l c d, cbuilt c ->
  get_rate (set_rates c l) d = match last_write l d with Some r => Ret (Some r) | None => get_rate c d end.
Proof.
  induction l as [|[k r] l IH]; intros c d B; [reflexivity|].
  unfold set_rates in *. cbn [fold_left fst snd]. rewrite IH by (apply cb_set; exact B).
  cbn [last_write]. destruct (last_write l d); [reflexivity|]. rewrite curve_set_get by exact B.
  destruct (Z.eqb k d); reflexivity.
Qed.
Print Assumptions curve_set_rates_get.

Lemma last_rev {A} (l : list A) : forall x, hd_error (rev l) = Some x -> exists l', l = l' ++ [x].
Proof.
  intros x H. destruct (rev l) as [|y r] eqn:E; [discriminate|]. injection H as ->.
  exists (rev r). rewrite <- (rev_involutive l), E. reflexivity.
Qed.
Lemma wfn_app n1 n2 : wfn (n1 ++ n2) -> (forall a b, In a n1 -> In b n2 -> (fst a < fst b)%Z) /\ wfn n1 /\ wfn n2.
Proof.
  unfold wfn. induction n1 as [|c n1 IH]; intros S; simpl in S.
  - split; [intros a b []|]. split; [constructor|exact S].
  - inversion S as [|? ? S' F]; subst. rewrite Forall_forall in F. unfold lt_key in F.
    destruct (IH S') as (H1 & H2 & H3). split; [|split].
    + intros a b [<-|Ha] Hb; [apply F, in_or_app; right; exact Hb|apply H1; assumption].
    + constructor; [exact H2|]. apply Forall_forall. intros x Hx. apply F, in_or_app. left; exact Hx.
    + exact H3.
Qed.

(** first and last are the extreme nodes *)
Theorem curve_extremes : forall c, cbuilt c ->
  (cnodes c = [] -> first_date c = None /\ last_date c = None /\ first_rate c = None /\ last_rate c = None) /\
  (cnodes c <> [] -> exists a ra b rb, first_date c = Some a /\ first_rate c = Some ra /\
     last_date c = Some b /\ last_rate c = Some rb /\
     In (a, ra) (cnodes c) /\ In (b, rb) (cnodes c) /\
     forall d r, In (d, r) (cnodes c) -> (a <= d <= b)%Z).
Proof.
  intros c B. pose proof (cbuilt_wf c B) as W. split.
  - intros E. unfold first_date, last_date, first_rate, last_rate. rewrite E. repeat split.
  - intros Ne. unfold first_date, last_date, first_rate, last_rate.
    destruct (hd_error (rev (cnodes c))) as [[b rb]|] eqn:L.
    2: { exfalso. destruct (rev (cnodes c)) eqn:E; [|discriminate]. apply Ne.
         apply (f_equal (@rev _)) in E. rewrite rev_involutive in E. exact E. }
    apply last_rev in L as (n' & E). destruct (cnodes c) as [|[a ra] n] eqn:En; [contradiction|].
    exists a, ra, b, rb. do 4 (split; [reflexivity|]). split; [left; reflexivity|].
    split; [rewrite E; apply in_or_app; right; left; reflexivity|].
    intros d r H. split.
    + destruct H as [H|H]; [injection H as <- <-; lia|]. inversion W as [|? ? _ F]; subst.
      rewrite Forall_forall in F. apply F in H. unfold lt_key in H. simpl in H. lia.
    + rewrite E in H, W. destruct (wfn_app _ _ W) as (X & _ & _).
      apply in_app_or in H as [H|[H|[]]].
      * specialize (X _ _ H (or_introl eq_refl)). simpl in X. lia.
      * injection H as <- <-. lia.
Qed.
Print Assumptions curve_extremes.

(** [get_brackets]: strictly inside, the closest node before and the closest
    node at or after the query; outside, the end node twice; panics only on an
    empty curve *)
Theorem curve_brackets : forall c d, cbuilt c -> cnodes c <> [] ->
  exists l r rl rr, get_brackets c d = Ret (l, r) /\ In (l, rl) (cnodes c) /\ In (r, rr) (cnodes c) /\
    ((forall k v, In (k, v) (cnodes c) -> (d <= k)%Z) /\ l = r /\ (forall k v, In (k, v) (cnodes c) -> (l <= k)%Z) \/
     (forall k v, In (k, v) (cnodes c) -> (k <= d)%Z) /\ l = r /\ (forall k v, In (k, v) (cnodes c) -> (k <= r)%Z) \/
     (l < d <= r)%Z /\ (forall k v, In (k, v) (cnodes c) -> (k <= l \/ r <= k)%Z)).
Proof.
  intros c d B Ne. destruct (proj2 (curve_extremes c B) Ne) as (a & ra & b & rb & Fa & _ & Lb & _ & Ia & Ib & Ext).
  pose proof (cbuilt_wf c B) as W. unfold get_brackets. rewrite Fa, Lb. cbn [unwrap bind].
  destruct (Z.leb_spec d a) as [L|L].
  { exists a, a, ra, ra. split; [reflexivity|]. split; [exact Ia|]. split; [exact Ia|]. left.
    split; [|split; [reflexivity|]]; intros k v H; apply Ext in H; lia. }
  rewrite Z.geb_leb. destruct (Z.leb_spec b d) as [L'|L'].
  { exists b, b, rb, rb. split; [reflexivity|]. split; [exact Ib|]. split; [exact Ib|]. right; left.
    split; [|split; [reflexivity|]]; intros k v H; apply Ext in H; lia. }
  assert (Ha : In (a, ra) (filter (fun p => Z.ltb (fst p) d) (cnodes c))).
  { apply filter_In. split; [exact Ia|]. apply Z.ltb_lt. exact L. }
  assert (Hb : In (b, rb) (filter (fun p => Z.leb d (fst p)) (cnodes c))).
  { apply filter_In. split; [exact Ib|]. apply Z.leb_le. simpl. lia. }
  assert (WF : forall f, wfn (filter f (cnodes c))).
  { intros f. unfold wfn. clear - W. induction W as [|p n S IH F]; simpl; [constructor|].
    destruct (f p); [|exact IH]. constructor; [exact IH|]. rewrite Forall_forall in *. intros q Hq.
    apply F. apply filter_In in Hq. apply Hq. }
  destruct (hd_error (rev (filter (fun p => Z.ltb (fst p) d) (cnodes c)))) as [[l rl]|] eqn:El.
  2: { exfalso. destruct (rev _) eqn:E; [|discriminate]. apply (f_equal (@rev _)) in E. rewrite rev_involutive in E.
       rewrite E in Ha. destruct Ha. }
  destruct (hd_error (filter (fun p => Z.leb d (fst p)) (cnodes c))) as [[r rr]|] eqn:Er.
  2: { exfalso. destruct (filter (fun p => Z.leb d (fst p)) (cnodes c)); [destruct Hb|discriminate]. }
  cbn [unwrap bind fst]. exists l, r, rl, rr. split; [reflexivity|].
  apply last_rev in El as (n' & El). destruct (filter (fun p => Z.leb d (fst p)) (cnodes c)) as [|p n2] eqn:Er'; [discriminate|].
  injection Er as ->.
  assert (Il : In (l, rl) (filter (fun p => Z.ltb (fst p) d) (cnodes c))) by (rewrite El; apply in_or_app; right; left; reflexivity).
  assert (Ir : In (r, rr) (filter (fun p => Z.leb d (fst p)) (cnodes c))) by (rewrite Er'; left; reflexivity).
  apply filter_In in Il as [Il Ll]. apply filter_In in Ir as [Ir Lr]. cbn [fst] in Ll, Lr.
  apply Z.ltb_lt in Ll. apply Z.leb_le in Lr.
  split; [exact Il|]. split; [exact Ir|]. right; right. split; [lia|].
  intros k v H. destruct (Z.ltb_spec k d) as [K|K].
  - left. assert (I : In (k, v) (filter (fun p => Z.ltb (fst p) d) (cnodes c))) by (apply filter_In; split; [exact H|apply Z.ltb_lt; exact K]).
    pose proof (WF (fun p => Z.ltb (fst p) d)) as W'. rewrite El in W', I. destruct (wfn_app _ _ W') as (X & _ & _).
    apply in_app_or in I as [I|[I|[]]]; [|injection I as <- <-; lia].
    specialize (X _ _ I (or_introl eq_refl)). simpl in X. lia.
  - right. assert (I : In (k, v) (filter (fun p => Z.leb d (fst p)) (cnodes c))) by (apply filter_In; split; [exact H|apply Z.leb_le; exact K]).
    pose proof (WF (fun p => Z.leb d (fst p))) as W'. rewrite Er' in W', I.
    destruct I as [I|I]; [injection I as <- <-; lia|]. inversion W' as [|? ? _ F]; subst.
    rewrite Forall_forall in F. apply F in I. unfold lt_key in I. simpl in I. lia.
Qed.
Print Assumptions curve_brackets.

(** a fresh curve with distinct dates: every read is the interpolation of its points *)
Lemma of_pairs_get l : NoDup (map fst l) -> forall d r, node_get (of_pairs l) d = Some r <-> In (d, r) l.
Proof.
  unfold of_pairs. intros N.
  assert (G : forall l n, wfn n -> NoDup (map fst l) -> (forall d, In d (map fst l) -> node_get n d = None) ->
    forall d r, node_get (fold_left (fun n p => node_insert n (fst p) (snd p)) l n) d = Some r <-> In (d, r) l \/ node_get n d = Some r).
  { clear. induction l as [|[k v] l IH]; intros n W N H d r; simpl; [tauto|].
    inversion N as [|? ? N1 N2]; subst. rewrite IH.
    - rewrite node_get_insert by exact W. destruct (Z.eqb_spec k d) as [->|Ne].
      + rewrite (H d (or_introl eq_refl)). split.
        * intros [X|X]; [left; right; exact X|]. injection X as ->. left; left; reflexivity.
        * intros [[X|X]|X]; [right; congruence|left; exact X|discriminate].
      + split; [intros [X|X]; auto|]. intros [[X|X]|X]; [congruence|auto|auto].
    - apply node_insert_wf; exact W.
    - exact N2.
    - intros d' Hd. rewrite node_get_insert by exact W. destruct (Z.eqb_spec k d') as [->|Ne]; [contradiction|].
      apply H. right; exact Hd. }
  intros d r. rewrite G; [|constructor|exact N|reflexivity]. simpl. split; [intros [X|X]; [exact X|discriminate]|auto].
Qed.

Theorem curve_fresh : forall dates rates m c d, curve_new dates rates m = Some c -> NoDup dates ->
  exists t, interp_new (map IZR dates) rates = Some t /\ get_rate c d = interpolate m t (IZR d).
Proof.
  intros dates rates m c d H N. unfold curve_new in H. destruct (interp_new (map IZR dates) rates) as [t|] eqn:T; [|discriminate].
  injection H as <-. exists t. split; [reflexivity|]. unfold get_rate. cbn [cnodes cmethod cinterp].
  assert (L : length dates = length rates).
  { rewrite <- (map_length IZR). apply interp_new_total. eexists; exact T. }
  destruct (node_get (of_pairs (combine dates rates)) d) as [r|] eqn:G; [|reflexivity].
  apply of_pairs_get in G; [|rewrite map_fst_combine by exact L; exact N].
  symmetry. apply (interp_node m (map IZR dates) rates t (IZR d) r T).
  - apply FinFun.Injective_map_NoDup; [intros a b E; apply eq_IZR; exact E|exact N].
  - unfold pt. clear - G. revert rates G. induction dates as [|k l IH]; intros [|v rates] G; try contradiction.
    simpl in *. destruct G as [G|G]; [left; congruence|right; auto].
Qed.
Print Assumptions curve_fresh.

(** [get_rate_and_insert] returns what [get_rate] returns and changes no later read *)
Theorem curve_get_insert : forall c d c' o, cbuilt c -> get_rate_and_insert c d = Ret (c', o) ->
  get_rate c d = Ret o /\ forall d', get_rate c' d' = get_rate c d'.
Proof.
  intros c d c' o B H. unfold get_rate_and_insert in H. unfold get_rate at 1.
  destruct (node_get (cnodes c) d) as [r|] eqn:G.
  - injection H as <- <-. split; [reflexivity|]. intros; reflexivity.
  - apply bind_Ret_inv in H as (o' & I & H). rewrite I.
    destruct o' as [r|]; injection H as <- <-; (split; [reflexivity|]); intros d'; [|reflexivity].
    change (get_rate (set_rate c d r) d' = get_rate c d'). rewrite curve_set_get by exact B.
    destruct (Z.eqb_spec d d') as [<-|]; [|reflexivity]. unfold get_rate. rewrite G, I. reflexivity.
Qed.
Print Assumptions curve_get_insert.

(** an empty curve: reads panic instead of returning [None] *)
Theorem curve_empty_panics : forall m d, exists c, curve_new [] [] m = Some c /\ get_rate c d = Panic /\ get_brackets c d = Panic.
Proof. intros. eexists; repeat split. Qed.
Print Assumptions curve_empty_panics.

(** ** C23: shifting *)

(** what [shift] does: node reads move by [s], all other reads stay *)
Lemma node_get_shift n s d : node_get (map (fun p => (fst p, snd p + s)) n) d = option_map (fun r => r + s) (node_get n d).
Proof. induction n as [|[k v] n IH]; simpl; [reflexivity|]. destruct (Z.eqb k d); [reflexivity|exact IH]. Qed.
Theorem curve_shift_effect : forall c s d, get_rate (shift c s) d =
  match node_get (cnodes c) d with
  | Some r => Ret (Some (r + s))
  | None => get_rate c d
  end.
Proof.
  intros c s d. unfold get_rate, shift. cbn [cnodes cmethod cinterp]. rewrite node_get_shift.
  destruct (node_get (cnodes c) d); reflexivity.
Qed.
Print Assumptions curve_shift_effect.
Theorem curve_shift_nodes : forall c s d r, cbuilt c -> In (d, r) (cnodes c) -> get_rate (shift c s) d = Ret (Some (r + s)).
Proof.
  intros c s d r B H. rewrite curve_shift_effect. apply (node_get_In _ (cbuilt_wf c B)) in H. rewrite H. reflexivity.
Qed.
Print Assumptions curve_shift_nodes.

(** the claim "shift moves every rate in range" is false on every curve, at
    every date strictly between two nodes *)
Theorem curve_shift_refuted : exists c d r s, cbuilt c /\ s <> 0 /\
  get_rate c d = Ret (Some r) /\ get_rate (shift c s) d <> Ret (Some (r + s)).
Proof.
  destruct (proj1 (interp_new_total (map IZR [0; 2]%Z) [1; 1]) eq_refl) as (t & T).
  exists (Curve (of_pairs (combine [0; 2]%Z [1; 1])) Linear t), 1%Z, 1, 1.
  assert (C : curve_new [0; 2]%Z [1; 1] Linear = Some (Curve (of_pairs (combine [0; 2]%Z [1; 1])) Linear t)).
  { unfold curve_new. rewrite T. reflexivity. }
  assert (G : get_rate (Curve (of_pairs (combine [0; 2]%Z [1; 1])) Linear t) 1 = Ret (Some 1)).
  { destruct (curve_fresh _ _ _ _ 1%Z C) as (t' & T' & ->).
    - repeat constructor; simpl; intuition lia.
    - rewrite T in T'. injection T' as <-.
      rewrite (interp_segment Linear _ _ _ 0 1 2 1 1 T).
      + unfold segment. do 2 f_equal. field.
      + simpl. repeat constructor; simpl; intuition lra.
      + left; reflexivity.
      + right; left; reflexivity.
      + split; [lra|]. simpl. intros x [<-|[<-|[]]]; lra.
      + lra. }
  split; [eapply cb_new; exact C|]. split; [lra|]. split; [exact G|].
  rewrite curve_shift_effect. change (node_get _ 1) with (@None R). rewrite G. intros X. injection X as X. lra.
Qed.
Print Assumptions curve_shift_refuted.

(** likewise [set_rate] never moves an interpolated rate (instance of
    [curve_set_get]): after raising one end node the midpoint still reads the old value *)
Theorem curve_set_rate_stale_refuted : exists c d0 r0 d, cbuilt c /\
  (exists r1, In (d0, r1) (cnodes c) /\ r1 <> r0) /\ node_get (cnodes c) d = None /\
  get_rate (set_rate c d0 r0) d = get_rate c d /\
  exists c2, curve_new [0; 2]%Z [1; r0] Linear = Some c2 /\ cnodes c2 = cnodes (set_rate c d0 r0) /\
    get_rate c2 d <> get_rate (set_rate c d0 r0) d.
Proof.
  destruct (proj1 (interp_new_total (map IZR [0; 2]%Z) [1; 1]) eq_refl) as (t & T).
  destruct (proj1 (interp_new_total (map IZR [0; 2]%Z) [1; 3]) eq_refl) as (u & U).
  set (c := Curve (of_pairs (combine [0; 2]%Z [1; 1])) Linear t).
  assert (C : curve_new [0; 2]%Z [1; 1] Linear = Some c) by (unfold curve_new; rewrite T; reflexivity).
  exists c, 2%Z, 3, 1%Z. assert (B : cbuilt c) by (eapply cb_new; exact C). split; [exact B|].
  split; [exists 1; split; [right; left; reflexivity|lra]|]. split; [reflexivity|].
  assert (E : get_rate (set_rate c 2 3) 1 = get_rate c 1) by (rewrite curve_set_get by exact B; reflexivity).
  split; [exact E|]. exists (Curve (of_pairs (combine [0; 2]%Z [1; 3])) Linear u).
  assert (C2 : curve_new [0; 2]%Z [1; 3] Linear = Some (Curve (of_pairs (combine [0; 2]%Z [1; 3])) Linear u)) by (unfold curve_new; rewrite U; reflexivity).
  split; [exact C2|]. split; [reflexivity|]. rewrite E.
  assert (D : NoDup [0; 2]%Z) by (repeat constructor; simpl; intuition lia).
  assert (D' : NoDup (map IZR [0; 2]%Z)) by (simpl; repeat constructor; simpl; intuition lra).
  assert (Nb : neighbours (map IZR [0; 2]%Z) 0 2) by (split; [lra|]; simpl; intros x [<-|[<-|[]]]; lra).
  destruct (curve_fresh _ _ _ _ 1%Z C D) as (t' & T' & ->). destruct (curve_fresh _ _ _ _ 1%Z C2 D) as (u' & U' & ->).
  rewrite T in T'. injection T' as <-. rewrite U in U'. injection U' as <-.
  rewrite (interp_segment Linear _ _ _ 0 1 2 1 1 T D' (or_introl eq_refl) (or_intror (or_introl eq_refl)) Nb ltac:(lra)).
  rewrite (interp_segment Linear _ _ _ 0 1 2 3 1 U D' (or_introl eq_refl) (or_intror (or_introl eq_refl)) Nb ltac:(lra)).
  unfold segment. intros X. injection X as X. field_simplify in X. lra.
Qed.
Print Assumptions curve_set_rate_stale_refuted.

(** non-vacuity: a curve with a history *)
Example curve_case : exists c, cbuilt c /\ cnodes c = [(10%Z, 1); (20%Z, 3); (30%Z, 2)] /\
  get_brackets c 25 = Ret (20, 30)%Z /\ get_rate c 20 = Ret (Some 3).
Proof.
  destruct (proj1 (interp_new_total (map IZR [30; 10]%Z) [2; 1]) eq_refl) as (t & T).
  set (c0 := Curve (of_pairs (combine [30; 10]%Z [2; 1])) Linear t).
  assert (C : curve_new [30; 10]%Z [2; 1] Linear = Some c0) by (unfold curve_new; rewrite T; reflexivity).
  exists (set_rate c0 20 3). split; [apply cb_set; eapply cb_new; exact C|]. repeat split.
Qed.
