(** Cash flows, legs, quotes and money in binary64: crates/RustQuant_cashflows/src/cashflow.rs 49-160,
    legs.rs 31-48, quotes.rs 50-92, crates/RustQuant_instruments/src/fx/money.rs 38-141, exchange.rs
    148-208.  Dates and currencies are those of AcctModel; the hash map of rates is left out: a rate is
    given directly. *)
From Coq Require Import List Bool.
From Verif Require Import Res DateModel F64Model F64RootModel.
From Verif Require AcctModel.
Import ListNotations.

(** cashflow.rs 20-26 *)
Record cf64 := Cf64 { amount64 : f64; date64 : date }.
(** cashflow.rs 49-51 *)
Definition cf_npv64 (c : cf64) (discount_rate : f64) : f64 := fmul (amount64 c) discount_rate.
(** cashflow.rs 53-72: [assert_eq!] on the dates *)
Definition cf_add64 (a b : cf64) : res cf64 :=
  assertb (date_eqb (date64 a) (date64 b)) (Ret (Cf64 (fadd (amount64 a) (amount64 b)) (date64 a))).
(** cashflow.rs 74-92 *)
Definition cf_sub64 (a b : cf64) : res cf64 :=
  assertb (date_eqb (date64 a) (date64 b)) (Ret (Cf64 (fsub (amount64 a) (amount64 b)) (date64 a))).
(** cashflow.rs 94-109 *)
Definition cf_mul64 (a : cf64) (k : f64) : cf64 := Cf64 (fmul (amount64 a) k) (date64 a).
(** cashflow.rs 111-126 *)
Definition cf_div64 (a : cf64) (k : f64) : cf64 := Cf64 (fdiv (amount64 a) k) (date64 a).
(** cashflow.rs 128-159 *)
Definition cf_neg64 (a : cf64) : cf64 := Cf64 (fneg (amount64 a)) (date64 a).
(** legs.rs 41-43; [neg] is the sign of the zero that the sum starts from *)
Definition leg_npv64 (neg : bool) (l : list cf64) (discount_rate : f64) : f64 := fsum neg (map (fun c => cf_npv64 c discount_rate) l).
(** legs.rs 46-48 *)
Definition leg_add64 (l : list cf64) (c : cf64) : list cf64 := l ++ [c].
(** quotes.rs 50-64: the quote left behind and the difference returned; [diff != 0.0] holds for NaN *)
Definition quote_set64 (q value : option f64) : option f64 * f64 :=
  let diff := match q, value with Some old, Some new => fsub new old | None, Some new => new | _, _ => zero end in
  (if negb (feq diff zero) then value else q, diff).
(** money.rs 25-30 *)
Record money64 := Money64 { cur64 : AcctModel.currency; sum64 : f64 }.
(** money.rs 38-42 *)
Definition money_eqb64 (a b : money64) : bool :=
  AcctModel.iso_eqb (AcctModel.cur_code (cur64 a)) (AcctModel.cur_code (cur64 b)) && feq (sum64 a) (sum64 b).
(** money.rs 44-52 *)
Definition money_cmp64 (a b : money64) : option comparison :=
  if AcctModel.cur_eqb (cur64 a) (cur64 b) then fcmp (sum64 a) (sum64 b) else None.
(** money.rs 83-141 *)
Definition money_op64 (op : f64 -> f64 -> f64) (a b : money64) : res money64 :=
  if AcctModel.cur_eqb (cur64 a) (cur64 b) then Ret (Money64 (cur64 a) (op (sum64 a) (sum64 b))) else Panic.
(** exchange.rs 34-43, 199-208 *)
Record rate64 := Rate64 { from64 : AcctModel.currency; to64 : AcctModel.currency; quote64 : f64 }.
Definition convert64 (r : rate64) (m : money64) : res money64 :=
  if AcctModel.cur_eqb (cur64 m) (from64 r) then Ret (Money64 (to64 r) (fmul (sum64 m) (quote64 r))) else Panic.
