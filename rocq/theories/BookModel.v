(** Model of the queue order book
    (crates/RustQuant_trading/src/order_book.rs, order.rs, order_side.rs).

    Simplifications: [VecDeque] is a list, front first; the fields of [Order] that no
    function reads (type, lifespan, timestamp, symbol, stop price) are one abstract
    payload; lengths are [nat] ([usize] cannot overflow before memory runs out). *)
From Coq Require Import List.
Import ListNotations.

(** order_side.rs 16-22 [enum OrderSide] *)
Inductive side := Bid | Ask.
(** order_side.rs 24-33 [!] *)
Definition side_not (s : side) : side := match s with Bid => Ask | Ask => Bid end.
Section Book.
Variable payload : Type.
(** order.rs 20-51 [struct Order] *)
Record order := Order { id : nat; order_side : side; data : payload }.
(** order_book.rs 20-28 [struct OrderBook] *)
Record book := Book { bids : list order; asks : list order }.
(** order_book.rs 36-43 [new], 30-34 [default] *)
Definition new : book := Book [] [].
(** order_book.rs 46-51 [insert_order] *)
Definition insert_order (b : book) (o : order) : book :=
  match order_side o with Bid => Book (bids b ++ [o]) (asks b) | Ask => Book (bids b) (asks b ++ [o]) end.
(** order_book.rs 54-57 [is_empty] *)
Definition is_empty (b : book) : bool := match bids b, asks b with [], [] => true | _, _ => false end.
(** order_book.rs 60-63 [len] *)
Definition len (b : book) : nat := length (bids b) + length (asks b).
End Book.
Arguments Order {payload}. Arguments id {payload}. Arguments order_side {payload}. Arguments data {payload}.
Arguments Book {payload}. Arguments bids {payload}. Arguments asks {payload}. Arguments new {payload}. Arguments insert_order {payload}. Arguments is_empty {payload}. Arguments len {payload}.
