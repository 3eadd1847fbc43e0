(** Independent specification of a limit order book: what a user expects.

    The abstract book is one plain list of resting orders in order of arrival.
    A market order walks the opposite side, best price first and earlier
    arrival first within a price, and takes what it needs. *)
From stdpp Require Import base numbers list gmap.
From Verif Require Import LobModel.
Open Scope N_scope.

Notation abook := (list order).

Global Instance order_eq_dec : EqDecision order.
Proof. solve_decision. Defined.

Definition ids (a : list order) : list N := map o_id a.

(** Best-first order on prices for a market order: buyers want the lowest
    price, sellers the highest. *)
Definition at_least_as_good (is_buy : bool) (p q : N) : bool :=
  if is_buy then p <=? q else q <=? p.

(** Insert [o] behind every order that has the better or the same price. *)
Fixpoint enqueue (is_buy : bool) (o : order) (q : list order) : list order :=
  match q with
  | [] => [o]
  | x :: q' =>
      if at_least_as_good is_buy (o_limit x) (o_limit o)
      then x :: enqueue is_buy o q'
      else o :: q
  end.
(** The queue seen by a market order: orders enqueued in order of arrival. *)
Definition priority (is_buy : bool) (l : list order) : list order :=
  fold_left (fun q o => enqueue is_buy o q) l [].

(** Take [left] shares from the front of a queue.  Result: fill per touched
    order (price, shares), the orders that go on resting, shares not filled. *)
Fixpoint consume (left : N) (q : list order)
  : list (N * N) * list order * N :=
  match q with
  | [] => ([], [], left)
  | o :: q' =>
      if left =? 0 then ([], q, 0)
      else if o_shares o <=? left then
        let '(f, r, l) := consume (left - o_shares o) q' in
        ((o_limit o, o_shares o) :: f, r, l)
      else ([(o_limit o, left)], set_shares o (o_shares o - left) :: q', 0)
  end.

(** Add up neighbouring fills at the same price. *)
Fixpoint per_level (f : list (N * N)) : list (N * N) :=
  match f with
  | [] => []
  | (p, s) :: f' =>
      match per_level f' with
      | (p', s') :: g => if p =? p' then (p, s + s') :: g
                         else (p, s) :: (p', s') :: g
      | [] => [(p, s)]
      end
  end.

Definition find_id (id : N) (l : list order) : option order :=
  head (filter (fun o => o_id o = id) l).

Definition side (is_buy : bool) (a : abook) : list order :=
  filter (fun o => o_is_buy o = is_buy) a.

Definition spec_step (a : abook) (o : op) : abook * out :=
  match o with
  | Add id is_buy shares lim ts =>
      if decide (id ∈ ids a)
      then (a, ODone (Some (ExistingIdError id)))
      else (a ++ [Order id is_buy shares lim ts], ODone None)
  | Cancel id =>
      if decide (id ∈ ids a)
      then (filter (fun o => o_id o <> id) a, ODone None)
      else (a, ODone (Some (NonExistingIdError id)))
  | Market shares is_buy =>
      let '(f, r, l) := consume shares (priority is_buy (side (negb is_buy) a)) in
      (omap (fun o => if decide (o_is_buy o = is_buy) then Some o
                      else find_id (o_id o) r) a,
       OFills (l =? 0) (per_level f))
  end.

Fixpoint spec_run (a : abook) (ops : list op) : abook * list out :=
  match ops with
  | [] => (a, [])
  | o :: ops' =>
      let '(a', x) := spec_step a o in
      let '(a'', xs) := spec_run a' ops' in
      (a'', x :: xs)
  end.

Definition total_shares (l : list order) : N := foldr (fun o s => o_shares o + s) 0 l.
Definition total_filled (f : list (N * N)) : N := foldr (fun x s => snd x + s) 0 f.

(** ** Observables of a concrete book, for stating the properties *)

(** Ids queued on side [s] at price [p], front first ([[]] if there is no such
    level). *)
Definition queue (b : book) (s : bool) (p : N) : list N :=
  match bt_get p (side_tree b s) with Some l => l_orders l | None => [] end.

(** All resting orders of a side, in no particular order. *)
Definition resting (b : book) (s : bool) : list order :=
  filter (fun o => o_is_buy o = s) (map snd (map_to_list (order_map b))).

(** [shows b a]: the concrete book [b] holds exactly the orders [a] (in order
    of arrival): the id map is the list, and every queue is the sub-list of its
    side and price, in order of arrival, with no empty level. *)
Definition shows (b : book) (a : abook) : Prop :=
  NoDup (ids a) /\
  (forall id o, order_map b !! id = Some o <-> o ∈ a /\ o_id o = id) /\
  (forall s p l, (p, l) ∈ side_tree b s ->
     l_price l = p /\ l_orders l <> []) /\
  (forall s p, queue b s p =
     ids (filter (fun o => o_is_buy o = s /\ o_limit o = p) a)).

(** [precedes l x y]: [x] stands before [y] in [l]. *)
Definition precedes (l : list order) (x y : order) : Prop :=
  exists l1 l2 l3, l = l1 ++ x :: l2 ++ y :: l3.

(** Strict best-price order for a market order of side [is_buy]. *)
Definition strictly_better (is_buy : bool) (p q : N) : Prop :=
  if is_buy then p < q else q < p.
