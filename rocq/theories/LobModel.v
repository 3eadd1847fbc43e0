(** Model of the limit order book of [RustQuant_trading].

    Sources (all under crates/RustQuant_trading/src):
      limit_order_book.rs          [Book]
      limit_order_book/limit.rs    [Limit]
      limit_order_book/order.rs    [Order]

    Simplifications, for the whole file:
    - [u64] values are [N]; every [+]/[-] the code performs on shares is checked
      against the [u64] range and panics outside it, as a debug build does;
    - [BTreeMap<u64, Limit>] is an association list kept in increasing key
      order by [bt_insert]; [HashMap<u64, Order>] is a std++ [gmap] (its
      iteration order is never used by the code);
    - [VecDeque<u64>] is a list, front first. *)

From stdpp Require Import base numbers list gmap.
From Verif Require Import Res.
Open Scope N_scope.

Definition u64_max : N := 18446744073709551615.

(** u64 [+] (overflow panics). *)
Definition u64_add (a b : N) : res N :=
  if a + b <=? u64_max then Ret (a + b) else Panic.
(** u64 [-] (underflow panics). *)
Definition u64_sub (a b : N) : res N :=
  if b <=? a then Ret (a - b) else Panic.

(** limit_order_book/order.rs 15-21 [struct Order] *)
Record order := Order {
  o_id : N;
  o_is_buy : bool;
  o_shares : N;
  o_limit : N;
  o_timestamp : N
}.

(** [order.shares -= d] on a [&mut Order]: limit_order_book/limit.rs 58 *)
Definition set_shares (o : order) (s : N) : order :=
  Order (o_id o) (o_is_buy o) s (o_limit o) (o_timestamp o).

(** limit_order_book/limit.rs 17-20 [struct Limit] *)
Record limit := Limit { l_price : N; l_orders : list N }.

(** ** [BTreeMap<u64, Limit>] (std): sorted association list *)
Definition btree := list (N * limit).

Fixpoint bt_get (k : N) (t : btree) : option limit :=
  match t with
  | [] => None
  | (k', v) :: t' => if k =? k' then Some v else bt_get k t'
  end.

Fixpoint bt_insert (k : N) (v : limit) (t : btree) : btree :=
  match t with
  | [] => [(k, v)]
  | (k', v') :: t' =>
      if k <? k' then (k, v) :: t
      else if k =? k' then (k, v) :: t'
      else (k', v') :: bt_insert k v t'
  end.

Fixpoint bt_remove (k : N) (t : btree) : btree :=
  match t with
  | [] => []
  | (k', v') :: t' => if k =? k' then t' else (k', v') :: bt_remove k t'
  end.

(** [values_mut().next()] and [values_mut().last()]: the entry with the least,
    respectively greatest key, together with its key. *)
Definition bt_first (t : btree) : option (N * limit) := head t.
Definition bt_last (t : btree) : option (N * limit) := last t.
(** [pop_first], [pop_last] *)
Definition bt_pop_first (t : btree) : btree := tail t.
Definition bt_pop_last (t : btree) : btree := removelast t.

(** limit_order_book.rs 26-30 [struct Book] *)
Record book := Book {
  buy_limits : btree;
  sell_limits : btree;
  order_map : gmap N order
}.

(** limit_order_book.rs 79-85 [Book::new] *)
Definition book_new : book := Book [] [] ∅.

(** ** limit.rs *)

(** limit.rs 26-31 [Limit::new] *)
Definition limit_new (price : N) : limit := Limit price [].

(** limit.rs 33-35 [Limit::add] *)
Definition limit_add (l : limit) (id : N) : limit :=
  Limit (l_price l) (l_orders l ++ [id]).

(** [iter().position(|id| id == &order_id)] : index of the first match *)
Fixpoint position (id : N) (q : list N) : option nat :=
  match q with
  | [] => None
  | x :: q' => if x =? id then Some 0%nat else S <$> position id q'
  end.

(** [VecDeque::remove(index)] *)
Fixpoint remove_at (i : nat) (q : list N) : list N :=
  match q, i with
  | [], _ => []
  | _ :: q', O => q'
  | x :: q', S i' => x :: remove_at i' q'
  end.

Definition is_empty {A} (l : list A) : bool :=
  match l with [] => true | _ => false end.

(** limit.rs 37-47 [Limit::cancel]: new limit and whether it is now empty *)
Definition limit_cancel (l : limit) (id : N) : res (limit * bool) :=
  let! i := unwrap (position id (l_orders l)) in
  let q := remove_at i (l_orders l) in
  Ret (Limit (l_price l) q, is_empty q).

(** limit.rs 52-65, the while loop of [Limit::execute], on
    ([executed_shares], [self.orders], [order_map]).  Every iteration either
    pops the front of the queue (recursive call on the tail) or makes
    [executed_shares] equal to [shares], after which the loop test fails: that
    last test is written out after the partial fill, without a recursive call. *)
Fixpoint limit_execute_loop (q : list N) (shares executed : N)
    (m : gmap N order) {struct q} : res (N * list N * gmap N order) :=
  match q with
  | [] => Ret (executed, [], m)
  | id :: q' =>
      if executed <? shares then
        let! o := unwrap (m !! id) in
        let! remaining := u64_sub shares executed in
        if remaining <? o_shares o then
          let! s := u64_sub (o_shares o) remaining in
          let! executed' := u64_add executed remaining in
          (* loop test after the partial fill *)
          if executed' <? shares then NoFuel
          else Ret (executed', id :: q', <[id := set_shares o s]> m)
        else
          let! executed' := u64_add executed (o_shares o) in
          limit_execute_loop q' shares executed' (delete id m)
      else Ret (executed, q, m)
  end.

(** limit.rs 49-68 [Limit::execute]: (executed, is_empty), new limit, new map *)
Definition limit_execute (l : limit) (shares : N) (m : gmap N order)
  : res (N * bool * limit * gmap N order) :=
  let! (executed, q, m') := limit_execute_loop (l_orders l) shares 0 m in
  Ret (executed, is_empty q, Limit (l_price l) q, m').

(** ** limit_order_book.rs *)

(** errors: limit_order_book.rs 37-68 *)
Inductive lob_error := ExistingIdError (id : N) | NonExistingIdError (id : N).

Definition side_tree (b : book) (is_buy : bool) : btree :=
  if is_buy then buy_limits b else sell_limits b.
Definition set_side_tree (b : book) (is_buy : bool) (t : btree) : book :=
  if is_buy then Book t (sell_limits b) (order_map b)
  else Book (buy_limits b) t (order_map b).
Definition set_order_map (b : book) (m : gmap N order) : book :=
  Book (buy_limits b) (sell_limits b) m.

(** limit_order_book.rs 97-127 [Book::add_order] *)
Definition add_order (b : book) (id : N) (is_buy : bool)
    (shares limit_value ts : N) : book * option lob_error :=
  match order_map b !! id with
  | Some _ => (b, Some (ExistingIdError id))
  | None =>
      let b1 := set_order_map b
        (<[id := Order id is_buy shares limit_value ts]> (order_map b)) in
      let t := side_tree b1 is_buy in
      let t' := match bt_get limit_value t with
                | Some l => bt_insert limit_value (limit_add l id) t
                | None =>
                    bt_insert limit_value
                      (limit_add (limit_new limit_value) id) t
                end in
      (set_side_tree b1 is_buy t', None)
  end.

(** limit_order_book.rs 139-161 [Book::cancel_order] *)
Definition cancel_order (b : book) (id : N) : res (book * option lob_error) :=
  match order_map b !! id with
  | None => Ret (b, Some (NonExistingIdError id))
  | Some o =>
      let b1 := set_order_map b (delete id (order_map b)) in
      let t := side_tree b1 (o_is_buy o) in
      let! l := unwrap (bt_get (o_limit o) t) in
      let! (l', empty) := limit_cancel l (o_id o) in
      let t' := bt_insert (o_limit o) l' t in
      let t'' := if empty : bool then bt_remove (o_limit o) t' else t' in
      Ret (set_side_tree b1 (o_is_buy o) t'', None)
  end.

(** limit_order_book.rs 181-204, the while loop of [execute_market_order] on
    ([limit_tree], [order_map], [shares_left], [result]).  The fuel counts loop
    tests; [execute_market_order] passes the number of levels plus one. *)
Fixpoint market_loop (fuel : nat) (is_buy : bool) (t : btree)
    (m : gmap N order) (shares_left : N) (result : list (N * N))
  : res (btree * gmap N order * (bool * list (N * N))) :=
  match fuel with
  | O => NoFuel
  | S fuel' =>
      if 0 <? shares_left then
        match (if is_buy then bt_first t else bt_last t) with
        | None => Ret (t, m, (false, result))
        | Some (k, l) =>
            let! (executed, empty, l', m') := limit_execute l shares_left m in
            let t1 := bt_insert k l' t in
            let! shares_left' := u64_sub shares_left executed in
            let result' := result ++ [(l_price l', executed)] in
            let t2 := if empty : bool
                      then (if is_buy then bt_pop_first t1 else bt_pop_last t1)
                      else t1 in
            market_loop fuel' is_buy t2 m' shares_left' result'
        end
      else Ret (t, m, (true, result))
  end.

(** limit_order_book.rs 171-207 [Book::execute_market_order] *)
Definition execute_market_order (b : book) (shares : N) (is_buy : bool)
  : res (book * (bool * list (N * N))) :=
  let t := side_tree b (negb is_buy) in
  let! (t', m', out) :=
    market_loop (S (length t)) is_buy t (order_map b) shares [] in
  Ret (set_side_tree (set_order_map b m') (negb is_buy) t', out).

(** ** Histories of calls *)
Inductive op :=
| Add (id : N) (is_buy : bool) (shares limit_value ts : N)
| Cancel (id : N)
| Market (shares : N) (is_buy : bool).

Inductive out :=
| ODone (e : option lob_error)                (* Ok(()) or Err(e) *)
| OFills (complete : bool) (fills : list (N * N)).

Definition step (b : book) (o : op) : res (book * out) :=
  match o with
  | Add id is_buy shares lim ts =>
      let '(b', e) := add_order b id is_buy shares lim ts in Ret (b', ODone e)
  | Cancel id =>
      let! (b', e) := cancel_order b id in Ret (b', ODone e)
  | Market shares is_buy =>
      let! (b', (c, f)) := execute_market_order b shares is_buy in
      Ret (b', OFills c f)
  end.

Fixpoint run (b : book) (ops : list op) : res (book * list out) :=
  match ops with
  | [] => Ret (b, [])
  | o :: ops' =>
      let! (b', x) := step b o in
      let! (b'', xs) := run b' ops' in
      Ret (b'', x :: xs)
  end.

(** A book that some history of calls on [Book::new()] produces.  The only
    restriction on arguments is the [u64] range of the size of a market order
    (sizes, prices, ids of limit orders may be any number). *)
Definition op_u64 (o : op) : Prop :=
  match o with
  | Add id _ s l ts => id <= u64_max /\ s <= u64_max /\ l <= u64_max /\ ts <= u64_max
  | Cancel id => id <= u64_max
  | Market s _ => s <= u64_max
  end.
Definition reachable (b : book) : Prop :=
  exists ops outs, Forall op_u64 ops /\ run book_new ops = Ret (b, outs).
