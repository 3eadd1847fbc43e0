(** Limit order book: property theorems (C01 - C06). *)
From stdpp Require Import base numbers list gmap sorting.
From Verif Require Import Res LobModel LobSpec LobProofs.
Open Scope N_scope.

(** the [u64] range is every number below 2^64, no more and no less *)
Lemma u64_range x : x <= u64_max <-> x < 2 ^ 64.
Proof. change (2 ^ 64) with (u64_max + 1). lia. Qed.

(** A concrete history used below to show that hypotheses can be met: two sell
    levels, two orders queued at the better one, one buy. *)
Definition demo_ops : list op :=
  [Add 1 false 10 101 0; Add 2 false 5 100 1; Add 3 false 7 100 2; Add 4 true 3 99 3].
Definition demo_book : book :=
  match run book_new demo_ops with Ret (b, _) => b | _ => book_new end.
Example demo_reachable : reachable demo_book.
Proof.
  exists demo_ops. eexists. split; [repeat constructor; done|]. vm_compute. reflexivity.
Qed.

(** C01: no sequence of calls panics or runs forever. *)
Theorem lob_never_panics : forall ops,
  Forall op_u64 ops ->
  exists b outs, run book_new ops = Ret (b, outs).
Proof. intros ops H. destruct (refinement ops H) as (b & -> & _). eauto. Qed.
Print Assumptions lob_never_panics.
Example lob_never_panics_ex : Forall op_u64 demo_ops.
Proof. repeat constructor; done. Qed.

(** C01: what holds in every reachable book. *)
Theorem lob_consistent : forall b, reachable b ->
  (* an id is queued at (side, price) iff it is stored with that side and price *)
  (forall s p id, id ∈ queue b s p <->
     exists o, order_map b !! id = Some o /\ o_is_buy o = s /\ o_limit o = p) /\
  (* and at most once in that queue *)
  (forall s p, NoDup (queue b s p)) /\
  (forall id o, order_map b !! id = Some o -> o_id o = id) /\
  (* no level is empty, levels are filed under their price, prices ascend *)
  (forall s p l, (p, l) ∈ side_tree b s -> l_price l = p /\ l_orders l <> []) /\
  (forall s, StronglySorted N.lt (map fst (side_tree b s))).
Proof. exact consistent. Qed.
Print Assumptions lob_consistent.
Example lob_consistent_ex :
  queue demo_book false 100 = [2; 3] /\ queue demo_book false 101 = [1] /\
  queue demo_book true 99 = [4] /\ queue demo_book true 100 = [].
Proof. done. Qed.

(** C02: every history shows the same outputs as the list specification of
    [LobSpec], and ends in a book that holds the specification's orders. *)
Theorem lob_refines_specification : forall ops,
  Forall op_u64 ops ->
  exists b, run book_new ops = Ret (b, snd (spec_run [] ops)) /\
            shows b (fst (spec_run [] ops)).
Proof. exact refinement. Qed.
Print Assumptions lob_refines_specification.
Example lob_refines_specification_ex :
  snd (spec_run [] (demo_ops ++ [Market 8 true; Market 20 true; Cancel 1])) =
  [ODone None; ODone None; ODone None; ODone None;
   OFills true [(100, 8)]; OFills false [(100, 4); (101, 10)];
   ODone (Some (NonExistingIdError 1))].
Proof. done. Qed.

(** C02: price-time priority of one market order on any reachable book. *)
Theorem lob_price_time_priority : forall b shares is_buy,
  reachable b -> shares < 2 ^ 64 ->
  exists a q filled touched rest b' c f,
    shows b a /\
    execute_market_order b shares is_buy = Ret (b', (c, f)) /\
    (* q: the opposite side, best price first, then earliest arrival *)
    q ≡ₚ filter (fun o => o_is_buy o = negb is_buy) a /\
    (forall x y, precedes q x y -> ~ strictly_better is_buy (o_limit y) (o_limit x)) /\
    (forall x y, o_limit x = o_limit y -> precedes q x y -> precedes a x y) /\
    (* a prefix of q is consumed, and at most the next order is touched *)
    q = filled ++ from_option (fun xd => [fst xd]) [] touched ++ rest /\
    match touched with
    | None => f = per_level (map (fun o => (o_limit o, o_shares o)) filled)
    | Some (x, d) => 0 < d < o_shares x /\ c = true /\
        f = per_level (map (fun o => (o_limit o, o_shares o)) filled ++ [(o_limit x, d)])
    end /\
    (c = true \/ rest = []) /\
    (* afterwards the book holds exactly the other orders, in the same order *)
    shows b' (omap (fun o =>
      if decide (o ∈ filled) then None
      else match touched with
           | Some (x, d) => if decide (o_id o = o_id x)
                            then Some (set_shares o (o_shares o - d)) else Some o
           | None => Some o
           end) a).
Proof. intros b shares is_buy R H. apply market_shape; [exact R|apply u64_range; exact H]. Qed.
Print Assumptions lob_price_time_priority.
Example lob_price_time_priority_ex :
  match execute_market_order demo_book 8 true with
  | Ret (b', (c, f)) => (c, f) = (true, [(100, 8)]) /\ queue b' false 100 = [3] /\
      order_map b' !! 3 = Some (Order 3 false 4 100 2)
  | _ => False end.
Proof. vm_compute. done. Qed.

(** C03: conservation of shares. *)
Theorem lob_conserves_shares : forall b shares is_buy,
  reachable b -> shares < 2 ^ 64 ->
  exists b' c f,
    execute_market_order b shares is_buy = Ret (b', (c, f)) /\
    total_filled f = N.min shares (total_shares (resting b (negb is_buy))) /\
    (c = true <-> total_filled f = shares) /\
    total_shares (resting b' (negb is_buy)) + total_filled f
      = total_shares (resting b (negb is_buy)) /\
    resting b' is_buy ≡ₚ resting b is_buy /\
    side_tree b' is_buy = side_tree b is_buy /\
    StronglySorted (strictly_better is_buy) (map fst f).
Proof. intros b shares is_buy R H. apply conservation; [exact R|apply u64_range; exact H]. Qed.
Print Assumptions lob_conserves_shares.
Example lob_conserves_shares_ex :
  reachable demo_book /\ total_shares (resting demo_book false) = 22.
Proof. split; [exact demo_reachable|done]. Qed.

(** C04/C05: add_order fails without effect exactly on a resting id; otherwise
    it appends the order at the back of its own queue and changes nothing else. *)
Theorem lob_add_order : forall b id is_buy shares lim ts,
  reachable b ->
  let '(b', e) := add_order b id is_buy shares lim ts in
  if decide (is_Some (order_map b !! id))
  then b' = b /\ e = Some (ExistingIdError id)
  else e = None /\
       order_map b' = <[id := Order id is_buy shares lim ts]> (order_map b) /\
       forall s p, queue b' s p =
         queue b s p ++ (if decide (s = is_buy /\ p = lim) then [id] else []).
Proof. exact add_cases. Qed.
Print Assumptions lob_add_order.

(** C04/C05: cancel_order fails without effect exactly on an id that is not
    resting; otherwise it removes that id and nothing else, everywhere keeping
    the order of the queues. *)
Theorem lob_cancel_order : forall b id,
  reachable b ->
  exists b' e, cancel_order b id = Ret (b', e) /\
  if decide (is_Some (order_map b !! id))
  then e = None /\ order_map b' = delete id (order_map b) /\
       forall s p, queue b' s p = filter (fun x => x <> id) (queue b s p)
  else b' = b /\ e = Some (NonExistingIdError id).
Proof. exact cancel_cases. Qed.
Print Assumptions lob_cancel_order.
Example lob_cancel_order_ex :
  is_Some (order_map demo_book !! 2) /\ order_map demo_book !! 9 = None.
Proof. split; [vm_compute; eauto|done]. Qed.

(** C05: cancelling a freshly added order restores the book exactly. *)
Theorem lob_cancel_undoes_add : forall b id is_buy shares lim ts,
  reachable b -> order_map b !! id = None ->
  cancel_order (fst (add_order b id is_buy shares lim ts)) id = Ret (b, None).
Proof. exact add_cancel. Qed.
Print Assumptions lob_cancel_undoes_add.
Example lob_cancel_undoes_add_ex :
  reachable demo_book /\ order_map demo_book !! 9 = None /\
  fst (add_order demo_book 9 false 1 100 7) <> demo_book.
Proof. split; [exact demo_reachable|]. split; [done|]. vm_compute. discriminate. Qed.

(** C06 is false: resting orders can cross. *)
Theorem lob_never_crossed_refuted :
  exists ops b outs, Forall op_u64 ops /\ run book_new ops = Ret (b, outs) /\
  exists i j x y, order_map b !! i = Some x /\ order_map b !! j = Some y /\
    o_is_buy x = true /\ o_is_buy y = false /\ 0 < o_shares x /\ 0 < o_shares y /\
    o_limit y < o_limit x.
Proof. exact crossing. Qed.
Print Assumptions lob_never_crossed_refuted.
