(** C40 portfolios, C41 money and exchange, C42 quotes, C43 cashflows and legs. *)
From Coq Require Import Reals List Bool ZArith NArith String Lra Lia Permutation.
From Verif Require Import Res InterpModel InterpProofs RList DateModel StatModel AcctModel CurrencyTable.
Import ListNotations.
Open Scope R_scope.

(** ** The association-list map *)
Section hm.
  Context {K V : Type} (eqb : K -> K -> bool) (eqb_eq : forall a b, eqb a b = true <-> a = b).

  Lemma eqb_refl' k : eqb k k = true. Proof. apply eqb_eq. reflexivity. Qed.
  Lemma eqb_neq' a b : a <> b -> eqb a b = false.
  Proof. intros H. destruct (eqb a b) eqn:E; [|reflexivity]. apply eqb_eq in E. congruence. Qed.

  Lemma hm_get_insert k (v : V) m k' :
    hm_get eqb k' (hm_insert eqb k v m) = if eqb k' k then Some v else hm_get eqb k' m.
  Proof.
    induction m as [|[a w] m IH]; simpl.
    - reflexivity.
    - destruct (eqb k a) eqn:E.
      + apply eqb_eq in E. subst a. simpl. destruct (eqb k' k); reflexivity.
      + simpl. rewrite IH. destruct (eqb k' a) eqn:E2; [|reflexivity].
        apply eqb_eq in E2. subst. destruct (eqb a k) eqn:E3; [|reflexivity].
        apply eqb_eq in E3. subst. rewrite eqb_refl' in E. discriminate.
  Qed.

  Lemma hm_get_In k (v : V) m : NoDup (map fst m) -> (hm_get eqb k m = Some v <-> In (k, v) m).
  Proof.
    induction m as [|[a w] m IH]; simpl; intros Hn.
    - split; [discriminate|tauto].
    - apply NoDup_cons_iff in Hn. destruct Hn as [Hni Hn]. destruct (eqb k a) eqn:E.
      + apply eqb_eq in E. subst a. split.
        * intros H. left. congruence.
        * intros [H|H]; [congruence|]. destruct Hni. apply in_map_iff. exists (k, v). auto.
      + rewrite IH by assumption. split; [auto|]. intros [H|H]; [|assumption].
        injection H as -> ->. rewrite eqb_refl' in E. discriminate.
  Qed.

  Lemma hm_update_spec k f m :
    (~ In k (map fst m) /\ hm_update (V:=V) eqb k f m = Panic) \/
    (In k (map fst m) /\ exists m', hm_update eqb k f m = Ret m' /\ map fst m' = map fst m /\
       forall k', hm_get eqb k' m' = if eqb k' k then option_map f (hm_get eqb k' m) else hm_get eqb k' m).
  Proof.
    induction m as [|[a w] m IH]; simpl.
    - left. tauto.
    - destruct (eqb k a) eqn:E.
      + apply eqb_eq in E. subst a. right. split; [auto|]. eexists. split; [reflexivity|]. split; [reflexivity|].
        intros k'. simpl. destruct (eqb k' k); reflexivity.
      + destruct IH as [[Hn ->]|[Hi (m' & -> & Hk & Hg)]].
        * left. split; [|reflexivity]. intros [->|H]; [rewrite eqb_refl' in E; discriminate|auto].
        * right. split; [auto|]. simpl. eexists. split; [reflexivity|]. split; [simpl; congruence|].
          intros k'. simpl. rewrite Hg. destruct (eqb k' a) eqn:E2; [|reflexivity].
          apply eqb_eq in E2. subst. destruct (eqb a k) eqn:E3; [|reflexivity].
          apply eqb_eq in E3. subst. rewrite eqb_refl' in E. discriminate.
  Qed.

  (** updating one entry changes a sum over the map by that entry's change *)
  Lemma hm_update_sum k (f : V -> V) m m' (g : V -> R) v :
    NoDup (map fst m) -> hm_update eqb k f m = Ret m' -> hm_get eqb k m = Some v ->
    rsum (map (fun kv => g (snd kv)) m') = rsum (map (fun kv => g (snd kv)) m) - g v + g (f v).
  Proof.
    revert m'. induction m as [|[a w] m IH]; simpl; intros m' Hn Hu Hg; [discriminate|].
    apply NoDup_cons_iff in Hn. destruct Hn as [Hni Hn]. destruct (eqb k a) eqn:E.
    - injection Hu as <-. injection Hg as <-. simpl. lra.
    - apply bind_Ret_inv in Hu. destruct Hu as (r & Hr & Hu). injection Hu as <-. simpl.
      rewrite (IH _ Hn Hr Hg). lra.
  Qed.

  Lemma hm_update_perm k f m1 m2 m1' :
    NoDup (map fst m1) -> Permutation m1 m2 -> hm_update (V:=V) eqb k f m1 = Ret m1' ->
    exists m2', hm_update eqb k f m2 = Ret m2' /\ Permutation m1' m2'.
  Proof.
    intros Hn Hp. revert m1'. induction Hp as [|[a w] l l' Hp IH|[a w] [b u] l|l l' l'' Hp1 IH1 Hp2 IH2]; simpl; intros m1' Hu.
    - discriminate.
    - simpl in Hn. apply NoDup_cons_iff in Hn. destruct Hn as [_ Hn].
      destruct (eqb k a); [injection Hu as <-; eauto|].
      apply bind_Ret_inv in Hu. destruct Hu as (r & Hr & Hu). injection Hu as <-.
      destruct (IH Hn _ Hr) as (m2' & -> & HP). simpl. eauto.
    - simpl in Hn. destruct (eqb k b) eqn:Eb, (eqb k a) eqn:Ea.
      + apply eqb_eq in Ea, Eb. subst. apply NoDup_cons_iff in Hn. simpl in Hn. tauto.
      + injection Hu as <-. simpl. eexists. split; [reflexivity|]. apply perm_swap.
      + simpl in Hu. injection Hu as <-. eexists. split; [reflexivity|]. apply perm_swap.
      + apply bind_Ret_inv in Hu. destruct Hu as (r & Hr & Hu). injection Hu as <-.
        apply bind_Ret_inv in Hr. destruct Hr as (r' & Hr' & Hr). injection Hr as <-.
        rewrite Hr'. simpl. eexists. split; [reflexivity|]. apply perm_swap.
    - destruct (IH1 Hn _ Hu) as (m2 & H2 & P2).
      assert (Hn' : NoDup (map fst l')) by (eapply Permutation_NoDup; [apply Permutation_map; exact Hp1|assumption]).
      destruct (IH2 Hn' _ H2) as (m3 & H3 & P3). exists m3. split; [assumption|]. etransitivity; eassumption.
  Qed.
End hm.

(** ** C40: portfolios *)

Section pf.
  Context {I : Type}.
  Implicit Types p : portfolio I.

  (** Reachable portfolios have distinct names (they are hash maps); this is all
      the theorems assume. *)
  Definition wf p := NoDup (map fst p).

  Theorem portfolio_identities : forall p q,
    pf_profit p = pf_value p - pf_cost p /\
    (Permutation p q -> pf_value p = pf_value q /\ pf_cost p = pf_cost q /\ pf_profit p = pf_profit q) /\
    pf_value (p ++ q) = pf_value p + pf_value q /\
    pf_cost (p ++ q) = pf_cost p + pf_cost q /\
    (forall k (x : position I), pf_value [(k, x)] = as_f64 (p_quantity x) * p_current_price x /\
                 pf_cost [(k, x)] = as_f64 (p_quantity x) * p_purchase_price x).
  Proof.
    intros p q. split; [|split; [|split; [|split]]].
    - unfold pf_profit, pf_value, pf_cost. induction p as [|[k x] p IH]; simpl; [lra|].
      rewrite IH. unfold pos_profit. lra.
    - intros H. unfold pf_value, pf_cost, pf_profit.
      repeat split; apply rsum_perm, Permutation_map, H.
    - unfold pf_value. rewrite map_app, rsum_app. reflexivity.
    - unfold pf_cost. rewrite map_app, rsum_app. reflexivity.
    - intros k x. unfold pf_value, pf_cost, pos_value. simpl. lra.
  Qed.

  Theorem update_price_effect : forall p name new_price, wf p ->
    (~ In name (map fst p) -> pf_update_price p name new_price = Panic) /\
    (forall x, hm_get String.eqb name p = Some x ->
       exists p', pf_update_price p name new_price = Ret p' /\ wf p' /\ map fst p' = map fst p /\
         (forall k y, k <> name -> (hm_get String.eqb k p' = Some y <-> hm_get String.eqb k p = Some y)) /\
         (exists x', hm_get String.eqb name p' = Some x' /\ p_current_price x' = new_price /\
            p_instrument x' = p_instrument x /\ p_quantity x' = p_quantity x /\
            p_purchase_price x' = p_purchase_price x /\ p_currency x' = p_currency x) /\
         pf_cost p' = pf_cost p /\
         pf_value p' = pf_value p + as_f64 (p_quantity x) * (new_price - p_current_price x)).
  Proof.
    intros p name pr Hw. split.
    - intros H. destruct (hm_update_spec String.eqb String.eqb_eq name (pos_update_price pr) p) as [[_ E]|[H2 _]]; [exact E|contradiction].
    - intros x Hx. destruct (hm_update_spec String.eqb String.eqb_eq name (pos_update_price pr) p) as [[H _]|[_ (p' & E & Hk & Hg)]].
      + destruct H. apply (hm_get_In String.eqb String.eqb_eq) in Hx; [|exact Hw]. apply in_map_iff. exists (name, x). auto.
      + exists p'. split; [exact E|]. split; [unfold wf; rewrite Hk; exact Hw|]. split; [exact Hk|]. split; [|split; [|split]].
        * intros k y Hne. rewrite Hg, (eqb_neq' _ String.eqb_eq) by assumption. tauto.
        * rewrite Hg, (eqb_refl' _ String.eqb_eq), Hx. simpl. eexists. split; [reflexivity|]. simpl. tauto.
        * unfold pf_cost. rewrite (hm_update_sum String.eqb name _ p p' (fun x => as_f64 (p_quantity x) * p_purchase_price x) x Hw E Hx).
          simpl. lra.
        * unfold pf_value. rewrite (hm_update_sum String.eqb name _ p p' pos_value x Hw E Hx). unfold pos_value. simpl. lra.
  Qed.

  Theorem update_quantity_effect : forall p name q, wf p ->
    (~ In name (map fst p) -> pf_update_quantity p name q = Panic) /\
    (forall x, hm_get String.eqb name p = Some x ->
       exists p', pf_update_quantity p name q = Ret p' /\ wf p' /\ map fst p' = map fst p /\
         (forall k y, k <> name -> (hm_get String.eqb k p' = Some y <-> hm_get String.eqb k p = Some y)) /\
         (exists x', hm_get String.eqb name p' = Some x' /\ p_quantity x' = q /\
            p_instrument x' = p_instrument x /\ p_current_price x' = p_current_price x /\
            p_purchase_price x' = p_purchase_price x /\ p_currency x' = p_currency x) /\
         pf_cost p' = pf_cost p + (as_f64 q - as_f64 (p_quantity x)) * p_purchase_price x /\
         pf_value p' = pf_value p + (as_f64 q - as_f64 (p_quantity x)) * p_current_price x).
  Proof.
    intros p name pr Hw. split.
    - intros H. destruct (hm_update_spec String.eqb String.eqb_eq name (pos_update_quantity pr) p) as [[_ E]|[H2 _]]; [exact E|contradiction].
    - intros x Hx. destruct (hm_update_spec String.eqb String.eqb_eq name (pos_update_quantity pr) p) as [[H _]|[_ (p' & E & Hk & Hg)]].
      + destruct H. apply (hm_get_In String.eqb String.eqb_eq) in Hx; [|exact Hw]. apply in_map_iff. exists (name, x). auto.
      + exists p'. split; [exact E|]. split; [unfold wf; rewrite Hk; exact Hw|]. split; [exact Hk|]. split; [|split; [|split]].
        * intros k y Hne. rewrite Hg, (eqb_neq' _ String.eqb_eq) by assumption. tauto.
        * rewrite Hg, (eqb_refl' _ String.eqb_eq), Hx. simpl. eexists. split; [reflexivity|]. simpl. tauto.
        * unfold pf_cost. rewrite (hm_update_sum String.eqb name _ p p' (fun x => as_f64 (p_quantity x) * p_purchase_price x) x Hw E Hx).
          simpl. lra.
        * unfold pf_value. rewrite (hm_update_sum String.eqb name _ p p' pos_value x Hw E Hx). unfold pos_value. simpl. lra.
  Qed.

  (** Histories of updates. *)
  Inductive pf_op := SetPrice (name : string) (price : R) | SetQuantity (name : string) (q : N).
  Definition op_name o := match o with SetPrice n _ => n | SetQuantity n _ => n end.
  Definition pf_step p o := match o with SetPrice n x => pf_update_price p n x | SetQuantity n q => pf_update_quantity p n q end.
  Fixpoint pf_run p (h : list pf_op) : res (portfolio I) :=
    match h with [] => Ret p | o :: h' => let! p' := pf_step p o in pf_run p' h' end.

  (** the last price (quantity) set for [k] in the history, if any *)
  Fixpoint last_price (k : string) (h : list pf_op) : option R :=
    match h with
    | [] => None
    | o :: h' => match last_price k h' with
                 | Some x => Some x
                 | None => match o with SetPrice n x => if String.eqb k n then Some x else None | _ => None end
                 end
    end.
  Fixpoint last_quantity (k : string) (h : list pf_op) : option N :=
    match h with
    | [] => None
    | o :: h' => match last_quantity k h' with
                 | Some x => Some x
                 | None => match o with SetQuantity n x => if String.eqb k n then Some x else None | _ => None end
                 end
    end.
  Definition dflt {A} (o : option A) (d : A) := match o with Some a => a | None => d end.

  (** A history succeeds iff it only names existing positions; afterwards every
      position has the last price and quantity set for it and nothing else has
      changed. *)
  Theorem portfolio_history : forall h p, wf p ->
    ((exists o, In o h /\ ~ In (op_name o) (map fst p)) -> pf_run p h = Panic) /\
    ((forall o, In o h -> In (op_name o) (map fst p)) ->
       exists p', pf_run p h = Ret p' /\ map fst p' = map fst p /\
         forall k x, hm_get String.eqb k p = Some x ->
           hm_get String.eqb k p' =
             Some (Position (p_instrument x) (dflt (last_quantity k h) (p_quantity x)) (p_purchase_price x)
                            (dflt (last_price k h) (p_current_price x)) (p_currency x))).
  Proof.
    induction h as [|o h IH]; intros p Hw.
    - split; [intros (o & [] & _)|]. intros _. exists p. repeat split. intros k x Hx. rewrite Hx. destruct x; reflexivity.
    - assert (S : (~ In (op_name o) (map fst p) /\ pf_step p o = Panic) \/
                  (In (op_name o) (map fst p) /\ exists p1, pf_step p o = Ret p1 /\ map fst p1 = map fst p /\
                     forall k x, hm_get String.eqb k p = Some x ->
                       hm_get String.eqb k p1 = Some (Position (p_instrument x) 
                          (match o with SetQuantity n q => if String.eqb k n then q else p_quantity x | _ => p_quantity x end) (p_purchase_price x)
                          (match o with SetPrice n q => if String.eqb k n then q else p_current_price x | _ => p_current_price x end) (p_currency x)))).
      { destruct o as [n pr|n q]; simpl.
        - destruct (hm_update_spec String.eqb String.eqb_eq n (pos_update_price pr) p) as [H|[H (p' & E & Hk & Hg)]]; [left; exact H|right].
          split; [exact H|]. exists p'. split; [exact E|]. split; [exact Hk|]. intros k x Hx. rewrite Hg, Hx.
          destruct (String.eqb k n); destruct x; reflexivity.
        - destruct (hm_update_spec String.eqb String.eqb_eq n (pos_update_quantity q) p) as [H|[H (p' & E & Hk & Hg)]]; [left; exact H|right].
          split; [exact H|]. exists p'. split; [exact E|]. split; [exact Hk|]. intros k x Hx. rewrite Hg, Hx.
          destruct (String.eqb k n); destruct x; reflexivity. }
      simpl. destruct S as [[Hn ->]|[Hi (p1 & -> & Hk & Hg)]].
      + simpl. split; [reflexivity|]. intros H. destruct Hn. apply H. left. reflexivity.
      + simpl. assert (Hw1 : wf p1) by (unfold wf; rewrite Hk; exact Hw). destruct (IH p1 Hw1) as [IHa IHb]. split.
        * intros (o' & [<-|Ho] & Hn); [contradiction|]. apply IHa. exists o'. rewrite Hk. auto.
        * intros H. destruct IHb as (p' & E & Hk' & Hg'); [intros o' Ho; rewrite Hk; apply H; auto|].
          exists p'. split; [exact E|]. split; [congruence|]. intros k x Hx. rewrite (Hg' _ _ (Hg _ _ Hx)). simpl.
          f_equal. f_equal.
          -- destruct (last_quantity k h); [reflexivity|]. destruct o; simpl; [reflexivity|]. destruct (String.eqb k name); reflexivity.
          -- destruct (last_price k h); [reflexivity|]. destruct o; simpl; [|reflexivity]. destruct (String.eqb k name); reflexivity.
  Qed.

  (** The iteration order of the hash map does not matter to any update. *)
  Theorem update_order_irrelevant : forall p q o p', wf p -> Permutation p q -> pf_step p o = Ret p' ->
    exists q', pf_step q o = Ret q' /\ Permutation p' q' /\ pf_value p' = pf_value q'.
  Proof.
    intros p q o p' Hw HP Hs.
    assert (X : exists q', pf_step q o = Ret q' /\ Permutation p' q').
    { destruct o; simpl in *; eapply (hm_update_perm String.eqb String.eqb_eq); eassumption. }
    destruct X as (q' & E & P'). exists q'. split; [exact E|]. split; [exact P'|].
    apply rsum_perm, Permutation_map, P'.
  Qed.

  (** Weights: finite exactly when the portfolio value is not zero; then each is
      value share, and they sum to one. *)
  Theorem weights_sum_to_one : forall p,
    map fst (pf_weights p) = map fst p /\
    (pf_value p <> 0 ->
       exists ws, map snd (pf_weights p) = map Some ws /\ rsum ws = 1 /\
         (forall i, (i < List.length p)%nat -> exists k x, nth_error p i = Some (k, x) /\
            nth i ws 0 * pf_value p = pos_value x) /\
         ((forall k x, In (k, x) p -> 0 <= p_current_price x) -> forall w, In w ws -> 0 <= w <= 1)) /\
    (pf_value p = 0 -> forall w, In w (map snd (pf_weights p)) -> w = None).
  Proof.
    intros p. unfold pf_weights. split; [rewrite map_map; reflexivity|]. split.
    - intros Hne. exists (map (fun kv => pos_value (snd kv) / pf_value p) p).
      assert (Hs : rsum (map (fun kv => pos_value (snd kv) / pf_value p) p) = 1).
      { rewrite (rsum_map_ext _ (fun kv => / pf_value p * pos_value (snd kv))) by (intros; unfold Rdiv; ring).
        rewrite (rsum_map_scal (fun kv => pos_value (snd kv)) (/ pf_value p) p). fold (pf_value p). field. assumption. }
      split; [|split; [exact Hs|split]].
      + rewrite !map_map. apply map_ext. intros [k x]. simpl. unfold fdiv.
        destruct (Reqb_spec (pf_value p) 0); [contradiction|reflexivity].
      + intros i Hi. destruct (nth_error p i) as [[k x]|] eqn:E; [|apply nth_error_None in E; lia].
        exists k, x. split; [reflexivity|].
        rewrite (nth_indep _ 0 ((fun kv => pos_value (snd kv) / pf_value p) (k, x))) by (rewrite map_length; exact Hi).
        rewrite (map_nth (fun kv => pos_value (snd kv) / pf_value p)), (nth_error_nth _ _ _ E). simpl. field. assumption.
      + intros Hpos.
        assert (H0 : forall kv, In kv p -> 0 <= pos_value (snd kv)).
        { intros [k x] H. unfold pos_value, as_f64. simpl. apply Rmult_le_pos; [apply pos_INR|eapply Hpos; exact H]. }
        assert (Hv : 0 < pf_value p).
        { assert (0 <= pf_value p) by (apply rsum_nonneg; exact H0). lra. }
        intros w Hw. apply in_map_iff in Hw. destruct Hw as (kv & <- & Hin).
        assert (Hle : pos_value (snd kv) <= pf_value p).
        { destruct (in_split _ _ Hin) as (l1 & l2 & E). unfold pf_value. rewrite E, map_app, rsum_app. simpl.
          assert (0 <= rsum (map (fun kv => pos_value (snd kv)) l1)) by (apply rsum_nonneg; intros; apply H0; rewrite E; apply in_or_app; auto).
          assert (0 <= rsum (map (fun kv => pos_value (snd kv)) l2)) by (apply rsum_nonneg; intros; apply H0; rewrite E; apply in_or_app; simpl; auto).
          lra. }
        specialize (H0 _ Hin). split.
        * apply Rmult_le_pos; [exact H0|left; apply Rinv_0_lt_compat, Hv].
        * apply (Rmult_le_reg_r (pf_value p)); [exact Hv|]. unfold Rdiv. rewrite Rmult_assoc, Rinv_l by lra. lra.
    - intros Hz w Hw. rewrite map_map in Hw. apply in_map_iff in Hw. destruct Hw as ([k x] & <- & _). simpl.
      unfold fdiv. destruct (Reqb_spec (pf_value p) 0); [reflexivity|contradiction].
  Qed.

  (** Finding: positions in different currencies are added up without
      conversion; replacing every currency changes nothing. *)
  Definition set_currency (c : option currency) (kv : string * position I) : string * position I :=
    (fst kv, Position (p_instrument (snd kv)) (p_quantity (snd kv)) (p_purchase_price (snd kv)) (p_current_price (snd kv)) c).
  Theorem portfolio_ignores_currency_refuted : forall p (f : string -> option currency),
    let p' := map (fun kv => set_currency (f (fst kv)) kv) p in
    pf_value p' = pf_value p /\ pf_cost p' = pf_cost p /\ pf_profit p' = pf_profit p.
  Proof.
    intros p f p'. unfold p', pf_value, pf_cost, pf_profit. rewrite !map_map.
    repeat split; apply rsum_map_ext; intros [k x] _; reflexivity.
  Qed.
End pf.
Print Assumptions portfolio_identities.
Print Assumptions update_price_effect.
Print Assumptions update_quantity_effect.
Print Assumptions portfolio_history.
Print Assumptions update_order_irrelevant.
Print Assumptions weights_sum_to_one.
Print Assumptions portfolio_ignores_currency_refuted.

Definition pf_ex : portfolio nat :=
  [("Call Options"%string, Position 1%nat 100 2 (7/2) None); ("Put Options"%string, Position 2%nat 100 (5/2) 2 None)].
Lemma pf_ex_hyp : wf pf_ex.
Proof. unfold wf, pf_ex. simpl. repeat constructor; simpl; intuition discriminate. Qed.
Example pf_ex_history : exists p', pf_run pf_ex [SetPrice "Put Options" 3; SetQuantity "Put Options" 7; SetPrice "Put Options" 4] = Ret p' /\
  hm_get String.eqb "Put Options"%string p' = Some (Position 2%nat 7 (5/2) 4 None).
Proof. eexists. split; reflexivity. Qed.
Example pf_ex_unknown : pf_run pf_ex [SetPrice "Bond" 3] = Panic.
Proof. reflexivity. Qed.
Example pf_ex_value : pf_value pf_ex = 550.
Proof. unfold pf_value, pos_value, as_f64, pf_ex. simpl. lra. Qed.

(** ** C41: money and exchange rates *)

Lemma iso_eqb_eq a b : iso_eqb a b = true <-> a = b.
Proof.
  unfold iso_eqb. rewrite andb_true_iff, !String.eqb_eq. destruct a, b; simpl. split; [intros [-> ->]; reflexivity|intros H; injection H; auto].
Qed.
Lemma cur_eqb_eq a b : cur_eqb a b = true <-> a = b.
Proof.
  unfold cur_eqb. rewrite !andb_true_iff, !String.eqb_eq, iso_eqb_eq, !N.eqb_eq. destruct a, b; simpl.
  split; [intros [[[[-> ->] ->] ->] ->]; reflexivity|intros H; injection H; auto].
Qed.
Lemma pair_eqb_eq a b : pair_eqb a b = true <-> a = b.
Proof.
  unfold pair_eqb. rewrite andb_true_iff, !cur_eqb_eq. destruct a, b; simpl. split; [intros [-> ->]; reflexivity|intros H; injection H; auto].
Qed.
Lemma cur_cases a b : (a = b /\ cur_eqb a b = true) \/ (a <> b /\ cur_eqb a b = false).
Proof.
  destruct (cur_eqb a b) eqn:E; [left|right]; split; try reflexivity; [apply cur_eqb_eq, E|].
  intros ->. assert (cur_eqb b b = true) by (apply cur_eqb_eq; reflexivity). congruence.
Qed.
Lemma cur_eqb_refl a : cur_eqb a a = true. Proof. apply cur_eqb_eq. reflexivity. Qed.

(** Every operator panics exactly on different currencies; otherwise the result
    has the common currency and the expected amount. *)
Theorem money_ops : forall a b,
  (m_currency a <> m_currency b ->
     money_add a b = Panic /\ money_sub a b = Panic /\ money_mul a b = Panic /\ money_div a b = Panic) /\
  (m_currency a = m_currency b ->
     money_add a b = Ret (Money (m_currency a) (m_amount a + m_amount b)) /\
     money_sub a b = Ret (Money (m_currency a) (m_amount a - m_amount b)) /\
     money_mul a b = Ret (Money (m_currency a) (m_amount a * m_amount b)) /\
     (m_amount b <> 0 -> money_div a b = Ret (Some (Money (m_currency a) (m_amount a / m_amount b)))) /\
     (m_amount b = 0 -> money_div a b = Ret None)).
Proof.
  intros a b. unfold money_add, money_sub, money_mul, money_div.
  destruct (cur_cases (m_currency a) (m_currency b)) as [[E ->]|[E ->]]; split; intros H; try contradiction; auto.
  unfold fdiv. destruct (Reqb_spec (m_amount b) 0); intuition congruence.
Qed.

(** Adding up a list: succeeds iff every summand has the first one's currency,
    and then gives the sum of the amounts whatever the order. *)
Definition money_total (m : money) (l : list money) : res money :=
  fold_left (fun acc x => let! a := acc in money_add a x) l (Ret m).
Lemma fold_panic {A B} (f : A -> B -> res A) l : fold_left (fun acc x => let! a := acc in f a x) l Panic = Panic.
Proof. induction l; simpl; auto. Qed.
Theorem money_total_spec : forall l m,
  ((forall x, In x l -> m_currency x = m_currency m) ->
     money_total m l = Ret (Money (m_currency m) (m_amount m + rsum (map m_amount l)))) /\
  ((exists x, In x l /\ m_currency x <> m_currency m) -> money_total m l = Panic).
Proof.
  unfold money_total. induction l as [|x l IH]; intros m; simpl.
  - split; [|intros (x & [] & _)]. intros _. f_equal. destruct m; simpl. f_equal. lra.
  - destruct (money_ops m x) as [Hne Heq]. split.
    + intros H. destruct Heq as [-> _]; [symmetry; apply H; auto|].
      destruct (IH (Money (m_currency m) (m_amount m + m_amount x))) as [IHa _]. rewrite IHa.
      * simpl. f_equal. f_equal. lra.
      * intros y Hy. simpl. apply H. auto.
    + intros (y & Hy & Hd). destruct (cur_cases (m_currency m) (m_currency x)) as [[E _]|[E _]].
      * destruct Heq as [-> _]; [exact E|]. apply IH. exists y. simpl. destruct Hy as [->|Hy]; [congruence|auto].
      * destruct Hne as [-> _]; [exact E|]. apply fold_panic.
Qed.
Corollary money_total_perm : forall m l l', Permutation l l' -> money_total m l = money_total m l'.
Proof.
  intros m l l' HP.
  assert (D : (forall x, In x l -> m_currency x = m_currency m) \/ exists x, In x l /\ m_currency x <> m_currency m).
  { clear HP. induction l as [|x l IH]; [left; intros x []|]. destruct (cur_cases (m_currency x) (m_currency m)) as [[E _]|[E _]].
    - destruct IH as [IH|(y & Hy & Hd)]; [left; intros y [<-|Hy]; auto|right; exists y; simpl; auto].
    - right. exists x. simpl. auto. }
  destruct D as [D|(x & Hx & Hd)].
  - rewrite (proj1 (money_total_spec l m) D). rewrite (proj1 (money_total_spec l' m)).
    + rewrite (rsum_perm _ _ (Permutation_map m_amount HP)). reflexivity.
    + intros x Hx. apply D. eapply Permutation_in; [symmetry; exact HP|exact Hx].
  - rewrite (proj2 (money_total_spec l m)), (proj2 (money_total_spec l' m)); [reflexivity| |]; exists x; (split; [|exact Hd]); try exact Hx.
    eapply Permutation_in; [exact HP|exact Hx].
Qed.

(** Equality is an equivalence; a strict order never relates equal amounts; the
    comparison is defined only inside one currency. *)
Theorem money_eq_equivalence :
  (forall a, money_eqb a a = true) /\ (forall a b, money_eqb a b = money_eqb b a) /\
  (forall a b c, money_eqb a b = true -> money_eqb b c = true -> money_eqb a c = true).
Proof.
  assert (S : forall a b, money_eqb a b = true <-> cur_code (m_currency a) = cur_code (m_currency b) /\ m_amount a = m_amount b).
  { intros a b. unfold money_eqb. rewrite andb_true_iff, iso_eqb_eq. destruct (Reqb_spec (m_amount a) (m_amount b)); intuition congruence. }
  split; [|split].
  - intros a. apply S. auto.
  - intros a b. destruct (money_eqb a b) eqn:E, (money_eqb b a) eqn:E2; try reflexivity.
    + apply S in E. assert (money_eqb b a = true) by (apply S; intuition congruence). congruence.
    + apply S in E2. assert (money_eqb a b = true) by (apply S; intuition congruence). congruence.
  - intros a b c H1 H2. apply S in H1, H2. apply S. intuition congruence.
Qed.
Theorem money_cmp_spec : forall a b,
  (m_currency a <> m_currency b -> money_partial_cmp a b = None) /\
  (m_currency a = m_currency b ->
     (money_partial_cmp a b = Some Lt <-> m_amount a < m_amount b) /\
     (money_partial_cmp a b = Some Gt <-> m_amount a > m_amount b) /\
     (money_partial_cmp a b = Some Eq <-> m_amount a = m_amount b) /\
     (money_partial_cmp a b = Some Eq <-> money_eqb a b = true)).
Proof.
  intros a b. unfold money_partial_cmp. destruct (cur_cases (m_currency a) (m_currency b)) as [[E ->]|[E ->]]; split; intros H; try contradiction; try reflexivity.
  unfold money_eqb. rewrite E, (proj2 (iso_eqb_eq _ _) eq_refl). simpl. unfold rcompare.
  destruct (Rltb_spec (m_amount a) (m_amount b)); [|destruct (Rltb_spec (m_amount b) (m_amount a))];
    (destruct (Reqb_spec (m_amount a) (m_amount b)));
    repeat split; intros; try discriminate; try reflexivity; lra.
Qed.

(** Finding: [==] looks at the ISO code only, [partial_cmp] and [+] at the whole
    [Currency]; so two amounts can be equal, yet incomparable and impossible to
    add (the [PartialOrd] contract requires [a == b] iff [Some(Equal)]). *)
Theorem money_eq_cmp_consistent_refuted :
  exists a b, money_eqb a b = true /\ money_partial_cmp a b = None /\ money_add a b = Panic.
Proof.
  exists (Money (Currency "US Dollar" "$" (Iso4217 "USD" "840") 2 100) 5), (Money (Currency "United States Dollar" "$" (Iso4217 "USD" "840") 2 100) 5).
  split; [|split; reflexivity].
  unfold money_eqb. simpl. destruct (Reqb_spec 5 5); [reflexivity|lra].
Qed.

(** ... but not between two of the library's currency constants: their codes are
    distinct. *)
Lemma string_nodupb_NoDup : forall l, (forallb (fun x => true) l = true) ->
  (fix nd l := match l with [] => true | x :: r => negb (existsb (String.eqb x) r) && nd r end) l = true -> NoDup l.
Proof.
  induction l as [|x l IH]; intros _ H; constructor.
  - simpl in H. apply andb_true_iff in H. destruct H as [H _]. intros Hin.
    rewrite (proj2 (existsb_exists _ _)) in H; [discriminate|]. exists x. split; [exact Hin|apply String.eqb_refl].
  - simpl in H. apply andb_true_iff in H. apply IH; [clear; induction l; auto|apply H].
Qed.
Theorem currency_codes_distinct :
  NoDup (map (fun c => alphabetic (cur_code c)) currencies) /\ NoDup (map (fun c => numeric (cur_code c)) currencies) /\
  (forall c d, In c currencies -> In d currencies ->
     alphabetic (cur_code c) = alphabetic (cur_code d) \/ numeric (cur_code c) = numeric (cur_code d) -> c = d) /\
  (forall c, In c currencies -> cur_fractions c = (10 ^ cur_minor c)%N) /\
  (forall c, In c currencies -> String.length (alphabetic (cur_code c)) = 3%nat /\ String.length (numeric (cur_code c)) = 3%nat).
Proof.
  assert (N1 : NoDup (map (fun c => alphabetic (cur_code c)) currencies)).
  { apply string_nodupb_NoDup; vm_compute; reflexivity. }
  assert (N2 : NoDup (map (fun c => numeric (cur_code c)) currencies)).
  { apply string_nodupb_NoDup; vm_compute; reflexivity. }
  assert (Inj : forall (f : currency -> string) l, NoDup (map f l) -> forall c d, In c l -> In d l -> f c = f d -> c = d).
  { intros f l. induction l as [|x l IH]; intros Hn c d Hc Hd E; [destruct Hc|]. simpl in Hn. apply NoDup_cons_iff in Hn. destruct Hn as [Hni Hn].
    destruct Hc as [->|Hc], Hd as [->|Hd]; auto.
    - destruct Hni. rewrite E. apply in_map, Hd.
    - destruct Hni. rewrite <- E. apply in_map, Hc. }
  split; [exact N1|]. split; [exact N2|]. split; [|split].
  - intros c d Hc Hd [E|E]; [exact (Inj _ _ N1 c d Hc Hd E)|exact (Inj _ _ N2 c d Hc Hd E)].
  - assert (B : forallb (fun c => N.eqb (cur_fractions c) (10 ^ cur_minor c)) currencies = true) by (vm_compute; reflexivity).
    intros c Hc. rewrite forallb_forall in B. apply N.eqb_eq, B, Hc.
  - assert (B : forallb (fun c => Nat.eqb (String.length (alphabetic (cur_code c))) 3 && Nat.eqb (String.length (numeric (cur_code c))) 3) currencies = true) by (vm_compute; reflexivity).
    intros c Hc. rewrite forallb_forall in B. specialize (B c Hc). apply andb_true_iff in B. destruct B as [B1 B2].
    split; apply Nat.eqb_eq; assumption.
Qed.
Theorem library_currencies_consistent : forall a b, In (m_currency a) currencies -> In (m_currency b) currencies ->
  (money_eqb a b = true <-> money_partial_cmp a b = Some Eq).
Proof.
  intros a b Ha Hb. destruct (cur_cases (m_currency a) (m_currency b)) as [[E _]|[E _]].
  - symmetry. apply (proj2 (money_cmp_spec a b) E).
  - rewrite (proj1 (money_cmp_spec a b) E). unfold money_eqb. rewrite andb_true_iff, iso_eqb_eq. split; [|discriminate].
    intros [H _]. destruct E. apply currency_codes_distinct; auto. left. congruence.
Qed.

(** ** Exchange *)

(** the state after a history of [add_rate] calls on [Exchange::new()] *)
Definition exchange_after (h : list exchange_rate) : exchange := fold_left add_rate h exchange_new.
(** the last rate of the history between two currencies *)
Fixpoint last_rate (from to : currency) (h : list exchange_rate) : option exchange_rate :=
  match h with
  | [] => None
  | r :: h' => match last_rate from to h' with
               | Some x => Some x
               | None => if cur_eqb from (from_currency r) && cur_eqb to (to_currency r) then Some r else None
               end
  end.
Lemma get_rate_after h : forall e from to,
  get_rate (fold_left add_rate h e) from to = match last_rate from to h with Some r => Some r | None => get_rate e from to end.
Proof.
  induction h as [|r h IH]; intros e from to; simpl; [reflexivity|].
  rewrite IH. destruct (last_rate from to h); [reflexivity|].
  unfold get_rate, add_rate. rewrite (hm_get_insert pair_eqb pair_eqb_eq). unfold pair_eqb. simpl.
  destruct (cur_eqb from (from_currency r) && cur_eqb to (to_currency r)); reflexivity.
Qed.
Lemma last_rate_ends from to h r : last_rate from to h = Some r -> In r h /\ from_currency r = from /\ to_currency r = to.
Proof.
  induction h as [|x h IH]; simpl; [discriminate|]. destruct (last_rate from to h).
  - intros H. injection H as <-. destruct IH as (? & ? & ?); auto.
  - destruct (cur_eqb from (from_currency x)) eqn:E1; simpl; [|discriminate].
    destruct (cur_eqb to (to_currency x)) eqn:E2; [|discriminate]. intros H. injection H as <-.
    apply cur_eqb_eq in E1, E2. auto.
Qed.

(** For every history: [get_rate] is the last rate added for exactly that ordered
    pair; [convert] multiplies by it and returns the requested currency, and
    panics exactly when no such rate was ever added. *)
Theorem exchange_convert_spec : forall h m to,
  get_rate (exchange_after h) (m_currency m) to = last_rate (m_currency m) to h /\
  (forall r, last_rate (m_currency m) to h = Some r ->
     In r h /\ from_currency r = m_currency m /\ to_currency r = to /\
     convert (exchange_after h) m to = Ret (Money to (m_amount m * rate r))) /\
  (convert (exchange_after h) m to = Panic <->
     forall r, In r h -> ~ (from_currency r = m_currency m /\ to_currency r = to)).
Proof.
  intros h m to.
  assert (G : get_rate (exchange_after h) (m_currency m) to = last_rate (m_currency m) to h).
  { unfold exchange_after. rewrite get_rate_after. destruct (last_rate _ _ h); reflexivity. }
  split; [exact G|]. split.
  - intros r Hr. destruct (last_rate_ends _ _ _ _ Hr) as (Hi & Hf & Ht). split; [exact Hi|]. split; [exact Hf|]. split; [exact Ht|].
    unfold convert. rewrite G, Hr. simpl. unfold rate_convert. rewrite Hf, cur_eqb_refl, Ht. reflexivity.
  - unfold convert. rewrite G. destruct (last_rate (m_currency m) to h) as [r|] eqn:E.
    + destruct (last_rate_ends _ _ _ _ E) as (Hi & Hf & Ht). simpl. unfold rate_convert. rewrite Hf, cur_eqb_refl.
      split; [discriminate|]. intros H. destruct (H r Hi). auto.
    + simpl. split; [|reflexivity]. intros _. revert E. induction h as [|x h IH]; simpl; [intros _ r []|].
      destruct (last_rate (m_currency m) to h) eqn:E2; [discriminate|].
      intros H r [<-|Hr].
      * intros [H1 H2]. rewrite H1, H2, !cur_eqb_refl in H. discriminate.
      * apply IH; auto. unfold exchange_after. rewrite get_rate_after, E2. reflexivity.
Qed.

(** There and back with reciprocal rates; conversion is linear and never changes
    the rate table. *)
Theorem convert_round_trip : forall h m to r1 r2,
  last_rate (m_currency m) to h = Some r1 -> last_rate to (m_currency m) h = Some r2 -> rate r1 * rate r2 = 1 ->
  (let! x := convert (exchange_after h) m to in convert (exchange_after h) x (m_currency m)) = Ret m.
Proof.
  intros h m to r1 r2 H1 H2 Hr. destruct (exchange_convert_spec h m to) as (_ & Hc & _).
  destruct (Hc _ H1) as (_ & _ & _ & ->). simpl.
  destruct (exchange_convert_spec h (Money to (m_amount m * rate r1)) (m_currency m)) as (_ & Hc2 & _).
  destruct (Hc2 _ H2) as (_ & _ & _ & ->). simpl. f_equal. destruct m as [c a]; simpl. f_equal.
  rewrite Rmult_assoc, Hr. lra.
Qed.
Theorem convert_additive : forall h a b to x y, m_currency a = m_currency b ->
  convert (exchange_after h) a to = Ret x -> convert (exchange_after h) b to = Ret y ->
  (let! s := money_add a b in convert (exchange_after h) s to) = money_add x y.
Proof.
  intros h a b to x y E Hx Hy. destruct (last_rate (m_currency a) to h) as [r|] eqn:L.
  - pose proof (proj1 (proj2 (exchange_convert_spec h a to)) _ L) as (_ & _ & _ & Ha).
    assert (L' : last_rate (m_currency b) to h = Some r) by congruence.
    pose proof (proj1 (proj2 (exchange_convert_spec h b to)) _ L') as (_ & _ & _ & Hb).
    assert (x = Money to (m_amount a * rate r)) by congruence. assert (y = Money to (m_amount b * rate r)) by congruence. subst x y.
    rewrite (proj1 (proj2 (money_ops a b) E)). simpl.
    pose proof (proj1 (proj2 (exchange_convert_spec h (Money (m_currency a) (m_amount a + m_amount b)) to)) _ L) as (_ & _ & _ & ->).
    rewrite (proj1 (proj2 (money_ops (Money to (m_amount a * rate r)) (Money to (m_amount b * rate r))) eq_refl)). simpl. f_equal. f_equal. ring.
  - destruct (exchange_convert_spec h a to) as (G & _ & _). unfold convert in Hx. rewrite G, L in Hx. discriminate.
Qed.
(** Only rates added directly are used: neither the inverse rate nor an implicit
    rate of one for the same currency. *)
Corollary no_implied_rates : exists h m, 
  last_rate (m_currency m) (m_currency m) h = None /\ convert (exchange_after h) m (m_currency m) = Panic /\
  exists to r, last_rate to (m_currency m) h = Some r /\ convert (exchange_after h) m to = Panic.
Proof.
  set (usd := Currency "United States Dollar" "$" (Iso4217 "USD" "840") 2 100). set (eur := Currency "Euro" "E" (Iso4217 "EUR" "978") 2 100).
  exists [ExchangeRate usd eur (1/2)], (Money eur 10). split; [reflexivity|]. split; [reflexivity|].
  exists usd, (ExchangeRate usd eur (1/2)). split; reflexivity.
Qed.
Print Assumptions money_ops.
Print Assumptions money_total_spec.
Print Assumptions money_total_perm.
Print Assumptions money_eq_equivalence.
Print Assumptions money_cmp_spec.
Print Assumptions money_eq_cmp_consistent_refuted.
Print Assumptions currency_codes_distinct.
Print Assumptions library_currencies_consistent.
Print Assumptions exchange_convert_spec.
Print Assumptions convert_round_trip.
Print Assumptions convert_additive.
Print Assumptions no_implied_rates.

Definition usd := Currency "United States Dollar" "$" (Iso4217 "USD" "840") 2 100.
Example usd_in_table : In usd currencies.
Proof.
  assert (existsb (cur_eqb usd) currencies = true) by (vm_compute; reflexivity).
  apply existsb_exists in H. destruct H as (c & Hc & E). apply cur_eqb_eq in E. congruence.
Qed.
Definition jpy := Currency "Japanese Yen" "Y" (Iso4217 "JPY" "392") 0 1.
Example round_trip_hyp : exists r1 r2,
  last_rate usd jpy [ExchangeRate usd jpy 3; ExchangeRate jpy usd (1/125); ExchangeRate usd jpy 125] = Some r1 /\
  last_rate jpy usd [ExchangeRate usd jpy 3; ExchangeRate jpy usd (1/125); ExchangeRate usd jpy 125] = Some r2 /\
  rate r1 * rate r2 = 1.
Proof. do 2 eexists. split; [reflexivity|]. split; [reflexivity|]. simpl. lra. Qed.

(** ** C42: quotes *)

Theorem quote_set_spec : forall q v q' d, quote_set_value q v = (q', d) ->
  (* a present new value on a valid quote is stored; difference new - old *)
  (forall old new, q = Some old -> v = Some new -> q' = Some new /\ d = new - old) /\
  (* a nonzero first value is stored, the difference is the value *)
  (forall new, q = None -> v = Some new -> new <> 0 -> q' = Some new /\ d = new) /\
  (* an absent new value changes nothing *)
  (v = None -> q' = q /\ d = 0).
Proof.
  intros q v q' d H. unfold quote_set_value in H. injection H as Hq Hd. repeat split.
  - intros. subst q v. destruct (Reqb_spec (new - old) 0); [|congruence]. subst q'. f_equal. lra.
  - subst. reflexivity.
  - subst q v. simpl in *. destruct (Reqb_spec new 0); congruence.
  - subst q v. congruence.
  - subst v. destruct q; destruct (Reqb_spec 0 0); congruence.
  - subst v. destruct q; congruence.
Qed.

(** Every history of [set_value] calls on a valid quote: the value is the last
    present value set (or the initial one) and the returned differences add up to
    final minus initial value. *)
Fixpoint quote_run (q : quote) (h : list (option R)) : quote * list R :=
  match h with [] => (q, []) | v :: h' => let '(q1, d) := quote_set_value q v in let '(q2, ds) := quote_run q1 h' in (q2, d :: ds) end.
Fixpoint last_some (old : R) (h : list (option R)) : R :=
  match h with [] => old | Some v :: h' => last_some v h' | None :: h' => last_some old h' end.
Theorem quote_history : forall h old q' ds, quote_run (Some old) h = (q', ds) ->
  q' = Some (last_some old h) /\ rsum ds = last_some old h - old /\ List.length ds = List.length h.
Proof.
  induction h as [|v h IH]; intros old q' ds H.
  - injection H as <- <-. simpl. repeat split. lra.
  - cbn [quote_run] in H. destruct (quote_set_value (Some old) v) as [q1 d] eqn:E.
    pose proof (quote_set_spec _ _ _ _ E) as (S1 & _ & S3).
    destruct (quote_run q1 h) as [q2 ds'] eqn:E2. injection H as <- <-.
    destruct v as [v|].
    + destruct (S1 old v eq_refl eq_refl) as [-> ->]. destruct (IH _ _ _ E2) as (-> & Hs & Hl). simpl. rewrite Hs, Hl. repeat split; lra.
    + destruct (S3 eq_refl) as [-> ->]. destruct (IH _ _ _ E2) as (-> & Hs & Hl). simpl. rewrite Hs, Hl. repeat split; lra.
Qed.
Theorem quote_reset_invalid : forall q, quote_is_valid (quote_reset q) = false /\ (forall v, quote_is_valid (Some v) = true) /\
  (forall v, v <> 0 -> fst (quote_set_value (quote_reset q) (Some v)) = Some v).
Proof.
  intros q. split; [reflexivity|]. split; [reflexivity|]. intros v Hv. unfold quote_set_value, quote_reset. simpl. destruct (Reqb_spec v 0); [contradiction|reflexivity].
Qed.

(** Findings: a first value of zero is dropped (the quote stays invalid), and
    [set_value(None)] never clears the quote. *)
Theorem quote_zero_dropped_refuted : quote_set_value None (Some 0) = (None, 0).
Proof. unfold quote_set_value. destruct (Reqb_spec 0 0); [reflexivity|lra]. Qed.
Theorem quote_none_ignored_refuted : forall x, quote_set_value (Some x) None = (Some x, 0).
Proof. intros x. unfold quote_set_value. destruct (Reqb_spec 0 0); [reflexivity|lra]. Qed.
Print Assumptions quote_set_spec.
Print Assumptions quote_history.
Print Assumptions quote_reset_invalid.
Print Assumptions quote_zero_dropped_refuted.
Print Assumptions quote_none_ignored_refuted.
Example quote_ex : fst (quote_run (Some 10) [Some 15; None; Some 0]) = Some 0.
Proof.
  destruct (quote_run (Some 10) [Some 15; None; Some 0]) as [q ds] eqn:E. apply quote_history in E. simpl in E. destruct E as [-> _]. reflexivity.
Qed.

(** ** C43: cashflows and legs *)

Lemma date_eqb_refl d : date_eqb d d = true.
Proof. unfold date_eqb. rewrite !Z.eqb_refl. reflexivity. Qed.
Lemma date_eqb_true a b : date_eqb a b = true <-> a = b.
Proof.
  unfold date_eqb. rewrite !andb_true_iff, !Z.eqb_eq. destruct a, b; simpl. split; [intros [[-> ->] ->]; reflexivity|intros H; injection H; auto].
Qed.

Theorem cashflow_algebra : forall a b,
  (cf_date a <> cf_date b -> cf_add a b = Panic /\ cf_sub a b = Panic) /\
  (cf_date a = cf_date b ->
     exists s t, cf_add a b = Ret s /\ cf_sub a b = Ret t /\ cf_date s = cf_date a /\ cf_date t = cf_date a /\
       cf_add b a = Ret s /\ cf_sub s b = Ret a /\ cf_add t b = Ret a /\ cf_add a (cf_neg b) = Ret t /\
       (forall df, cf_npv s df = cf_npv a df + cf_npv b df /\ cf_npv t df = cf_npv a df - cf_npv b df)) /\
  cf_neg (cf_neg a) = a /\
  (forall k, cf_date (cf_mul a k) = cf_date a /\
     (forall df, cf_npv (cf_mul a k) df = k * cf_npv a df) /\
     (k <> 0 -> cf_div (cf_mul a k) k = Some a) /\ (k = 0 -> cf_div a k = None)).
Proof.
  intros [x d] [y e]. unfold cf_add, cf_sub, cf_neg, cf_mul, cf_div, cf_npv, assertb. simpl. split; [|split; [|split]].
  - intros H. destruct (date_eqb d e) eqn:E; [apply date_eqb_true in E; contradiction|auto].
  - intros <-. rewrite date_eqb_refl. do 2 eexists. split; [reflexivity|]. split; [reflexivity|]. simpl. rewrite date_eqb_refl.
    repeat split; try (f_equal; f_equal; lra); lra.
  - f_equal. lra.
  - intros k. split; [reflexivity|]. split; [intros; ring|]. unfold fdiv. split.
    + intros H. destruct (Reqb_spec k 0); [contradiction|]. f_equal. f_equal. field. exact H.
    + intros ->. destruct (Reqb_spec 0 0); [reflexivity|lra].
Qed.

Theorem leg_npv_linear : forall l l' c k df,
  leg_npv [] df = 0 /\
  leg_npv (leg_add_cashflow l c) df = leg_npv l df + cf_amount c * df /\
  leg_npv (l ++ l') df = leg_npv l df + leg_npv l' df /\
  leg_npv (map (fun x => cf_mul x k) l) df = k * leg_npv l df /\
  (Permutation l l' -> leg_npv l df = leg_npv l' df) /\
  leg_npv l df = df * rsum (map cf_amount l) /\
  leg_size (leg_add_cashflow l c) = Datatypes.S (leg_size l).
Proof.
  intros. unfold leg_npv, leg_add_cashflow, leg_size. split; [reflexivity|]. split; [|split; [|split; [|split; [|split]]]].
  - rewrite map_app, rsum_app. simpl. unfold cf_npv. lra.
  - rewrite map_app, rsum_app. reflexivity.
  - rewrite map_map, <- rsum_map_scal. apply rsum_map_ext. intros x _. unfold cf_npv, cf_mul. simpl. ring.
  - intros H. apply rsum_perm, Permutation_map, H.
  - rewrite <- rsum_map_scal. apply rsum_map_ext. intros x _. unfold cf_npv. ring.
  - rewrite app_length. simpl. lia.
Qed.

(** extremes, in terms of day numbers *)
Lemma fold_min_spec r : forall d, valid d -> (forall x, In x r -> valid x) ->
  let m := fold_left (fun m x => if date_ltb x m then x else m) r d in
  valid m /\ (m = d \/ In m r) /\ (daynum m <= daynum d)%Z /\ forall x, In x r -> (daynum m <= daynum x)%Z.
Proof.
  induction r as [|y r IH]; intros d Vd Vr; simpl; [split; [assumption|]; split; [auto|]; split; [lia|]; intros x []|].
  destruct (date_ltb y d) eqn:E.
  - apply daynum_lt in E; [|apply Vr; simpl; auto|assumption].
    destruct (IH y) as (A & B & C & D); [apply Vr; simpl; auto|intros; apply Vr; simpl; auto|].
    cbv zeta in *. split; [exact A|]. split; [destruct B as [->|B]; auto|]. split; [lia|]. intros x [<-|Hx]; auto.
  - assert (E' : ~ (daynum y < daynum d)%Z) by (intros H; apply daynum_lt in H; [congruence|apply Vr; simpl; auto|assumption]).
    destruct (IH d) as (A & B & C & D); [assumption|intros; apply Vr; simpl; auto|].
    cbv zeta in *. split; [exact A|]. split; [destruct B as [->|B]; auto|]. split; [lia|]. intros x [<-|Hx]; [lia|auto].
Qed.
Lemma fold_max_spec r : forall d, valid d -> (forall x, In x r -> valid x) ->
  let m := fold_left (fun m x => if date_ltb x m then m else x) r d in
  valid m /\ (m = d \/ In m r) /\ (daynum d <= daynum m)%Z /\ forall x, In x r -> (daynum x <= daynum m)%Z.
Proof.
  induction r as [|y r IH]; intros d Vd Vr; simpl; [split; [assumption|]; split; [auto|]; split; [lia|]; intros x []|].
  destruct (date_ltb y d) eqn:E.
  - apply daynum_lt in E; [|apply Vr; simpl; auto|assumption].
    destruct (IH d) as (A & B & C & D); [assumption|intros; apply Vr; simpl; auto|].
    cbv zeta in *. split; [exact A|]. split; [destruct B as [->|B]; auto|]. split; [lia|]. intros x [<-|Hx]; [lia|auto].
  - assert (E' : ~ (daynum y < daynum d)%Z) by (intros H; apply daynum_lt in H; [congruence|apply Vr; simpl; auto|assumption]).
    destruct (IH y) as (A & B & C & D); [apply Vr; simpl; auto|intros; apply Vr; simpl; auto|].
    cbv zeta in *. split; [exact A|]. split; [destruct B as [->|B]; auto|]. split; [lia|]. intros x [<-|Hx]; auto.
Qed.

Theorem leg_dates : forall l, (forall c, In c l -> valid (cf_date c)) ->
  (l = [] -> leg_start_date l = None /\ leg_end_date l = None /\ forall d, leg_is_active l d = false) /\
  (l <> [] -> exists s e, leg_start_date l = Some s /\ leg_end_date l = Some e /\
     In s (map cf_date l) /\ In e (map cf_date l) /\
     (forall c, In c l -> (daynum s <= daynum (cf_date c) <= daynum e)%Z) /\
     forall d, valid d -> (leg_is_active l d = true <-> (daynum s <= daynum d <= daynum e)%Z)).
Proof.
  intros l V. split; [intros ->; repeat split|]. intros Hne. destruct l as [|c l]; [congruence|].
  assert (Vr : forall x, In x (map cf_date l) -> valid x) by (intros x Hx; apply in_map_iff in Hx; destruct Hx as (y & <- & Hy); apply V; simpl; auto).
  assert (Vc : valid (cf_date c)) by (apply V; simpl; auto).
  destruct (fold_min_spec _ _ Vc Vr) as (A & B & C & D). destruct (fold_max_spec _ _ Vc Vr) as (A' & B' & C' & D'). cbv zeta in *.
  unfold leg_is_active, leg_start_date, leg_end_date. simpl.
  set (s := fold_left (fun m x => if date_ltb x m then x else m) (map cf_date l) (cf_date c)) in *.
  set (e := fold_left (fun m x => if date_ltb x m then m else x) (map cf_date l) (cf_date c)) in *.
  exists s, e. split; [reflexivity|]. split; [reflexivity|]. split; [destruct B as [->|B]; auto|]. split; [destruct B' as [->|B']; auto|]. split.
  - intros x [<-|Hx]; [lia|]. split; [apply D|apply D']; apply in_map, Hx.
  - intros d Vd. rewrite andb_true_iff. split.
    + intros [H1 H2]. apply daynum_le in H1; [|assumption..]. apply daynum_le in H2; [|assumption..]. lia.
    + intros [H1 H2]. split; apply daynum_le; assumption.
Qed.

(** Finding: the payment dates never influence a leg's NPV; every cashflow gets
    the same factor, so moving a payment decades away changes nothing. *)
Theorem leg_npv_ignores_dates_refuted : forall l (f : date -> date) df,
  leg_npv (map (fun c => Cashflow (cf_amount c) (f (cf_date c))) l) df = leg_npv l df.
Proof. intros. unfold leg_npv. rewrite map_map. reflexivity. Qed.
Print Assumptions cashflow_algebra.
Print Assumptions leg_npv_linear.
Print Assumptions leg_dates.
Print Assumptions leg_npv_ignores_dates_refuted.
Definition leg_ex : leg := [Cashflow 100 (Date 2024 2 29); Cashflow 200 (Date 2023 12 31); Cashflow 300 (Date 2024 1 15)].
Example leg_ex_hyp : forall c, In c leg_ex -> valid (cf_date c).
Proof. intros c [<-|[<-|[<-|[]]]]; unfold valid; simpl; vm_compute; intuition congruence. Qed.
Example leg_ex_dates : leg_start_date leg_ex = Some (Date 2023 12 31) /\ leg_end_date leg_ex = Some (Date 2024 2 29) /\
  leg_is_active leg_ex (Date 2024 2 1) = true /\ leg_is_active leg_ex (Date 2024 3 1) = false.
Proof. repeat split. Qed.
