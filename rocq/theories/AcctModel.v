(** Model of cashflows, quotes, money, exchange rates and portfolios.

    Sources:
      crates/RustQuant_cashflows/src/cashflow.rs, legs.rs, quotes.rs
      crates/RustQuant_instruments/src/fx/currency.rs, money.rs, exchange.rs
      crates/RustQuant_portfolios/src/lib.rs

    Simplifications, for the whole file:
    - f64 (and the f32 of [position_weights]) is [R]; a quotient with a zero
      divisor is [None] (NaN or infinite in the code);
    - [&'static str] and [String] are Coq [string]s (bytes);
    - [usize]/[u64] are [N]; no arithmetic is done on them here;
    - [HashMap<K, V>] is an association list.  Its order stands for the
      unspecified iteration order; every theorem that depends on a sum over the
      map also says that reordering the list does not matter. *)
From Coq Require Import Reals List Bool ZArith NArith String Ascii.
From Verif Require Import Res InterpModel RList DateModel StatModel.
Import ListNotations.
Open Scope R_scope.

(** ** std::collections::HashMap *)
Section hash_map.
  Context {K V : Type} (eqb : K -> K -> bool).

  (** [HashMap::get] *)
  Fixpoint hm_get (k : K) (m : list (K * V)) : option V :=
    match m with
    | [] => None
    | (k', v) :: m' => if eqb k k' then Some v else hm_get k m'
    end.

  (** [HashMap::insert]: replaces the value of an equal key *)
  Fixpoint hm_insert (k : K) (v : V) (m : list (K * V)) : list (K * V) :=
    match m with
    | [] => [(k, v)]
    | (k', v') :: m' => if eqb k k' then (k', v) :: m' else (k', v') :: hm_insert k v m'
    end.

  (** [*HashMap::get_mut(k).unwrap()] updated in place by [f] *)
  Fixpoint hm_update (k : K) (f : V -> V) (m : list (K * V)) : res (list (K * V)) :=
    match m with
    | [] => Panic
    | (k', v) :: m' =>
        if eqb k k' then Ret ((k', f v) :: m')
        else let! r := hm_update k f m' in Ret ((k', v) :: r)
    end.
End hash_map.

(** ** cashflow.rs *)

(** cashflow.rs 20-26 [struct Cashflow] *)
Record cashflow := Cashflow { cf_amount : R; cf_date : date }.

(** cashflow.rs 48-50 [npv] *)
Definition cf_npv (c : cashflow) (discount_rate : R) : R := cf_amount c * discount_rate.

(** cashflow.rs 53-64 [Add::add]; 66-72 [AddAssign::add_assign] has the same
    assertion and leaves the same value in the left operand *)
Definition cf_add (a b : cashflow) : res cashflow :=
  assertb (date_eqb (cf_date a) (cf_date b)) (Ret (Cashflow (cf_amount a + cf_amount b) (cf_date a))).

(** cashflow.rs 74-85 [Sub::sub]; 87-92 [SubAssign::sub_assign] likewise *)
Definition cf_sub (a b : cashflow) : res cashflow :=
  assertb (date_eqb (cf_date a) (cf_date b)) (Ret (Cashflow (cf_amount a - cf_amount b) (cf_date a))).

(** cashflow.rs 94-109 [Mul<f64>], [MulAssign<f64>] *)
Definition cf_mul (a : cashflow) (k : R) : cashflow := Cashflow (cf_amount a * k) (cf_date a).

(** cashflow.rs 111-126 [Div<f64>], [DivAssign<f64>] *)
Definition cf_div (a : cashflow) (k : R) : option cashflow :=
  match fdiv (cf_amount a) k with Some x => Some (Cashflow x (cf_date a)) | None => None end.

(** cashflow.rs 128-159 [Neg] for the value and both reference types *)
Definition cf_neg (a : cashflow) : cashflow := Cashflow (- cf_amount a) (cf_date a).

(** ** legs.rs *)

(** legs.rs 20-23 [struct Leg], 31-33 [new], 51-53 [cashflows] *)
Definition leg := list cashflow.

(** legs.rs 36-38 *)
Definition leg_size (l : leg) : nat := List.length l.

(** legs.rs 41-43 [npv] *)
Definition leg_npv (l : leg) (discount_rate : R) : R := rsum (map (fun cf => cf_npv cf discount_rate) l).

(** legs.rs 46-48 [add_cashflow] *)
Definition leg_add_cashflow (l : leg) (c : cashflow) : leg := l ++ [c].

(** [Iterator::min] / [Iterator::max] over dates (Rust keeps the first minimum
    and the last maximum; equal dates are identical) *)
Definition iter_min (l : list date) : option date :=
  match l with
  | [] => None
  | d :: r => Some (fold_left (fun m x => if date_ltb x m then x else m) r d)
  end.
Definition iter_max (l : list date) : option date :=
  match l with
  | [] => None
  | d :: r => Some (fold_left (fun m x => if date_ltb x m then m else x) r d)
  end.

(** legs.rs 56-58 [start_date], 61-63 [end_date] *)
Definition leg_start_date (l : leg) : option date := iter_min (map cf_date l).
Definition leg_end_date (l : leg) : option date := iter_max (map cf_date l).

(** legs.rs 66-71 [is_active] *)
Definition leg_is_active (l : leg) (current : date) : bool :=
  match leg_start_date l, leg_end_date l with
  | Some s, Some e => date_leb s current && date_leb current e
  | _, _ => false
  end.

(** ** quotes.rs *)

(** quotes.rs 19-21 [struct SimpleQuote], 24-28 [new], 86-88 [value] *)
Definition quote := option R.

(** quotes.rs 50-64 [set_value]: the new quote and the returned difference *)
Definition quote_set_value (q : quote) (value : option R) : quote * R :=
  let diff := match q, value with
              | Some old, Some new => new - old
              | None, Some new => new
              | _, _ => 0
              end in
  (if Reqb diff 0 then q else value, diff).

(** quotes.rs 80-82 [reset] *)
Definition quote_reset (q : quote) : quote := None.

(** quotes.rs 90-92 [is_valid] *)
Definition quote_is_valid (q : quote) : bool := match q with Some _ => true | None => false end.

(** ** currency.rs *)

(** RustQuant_iso/src/iso_4217.rs 27-33 [struct ISO_4217] *)
Record iso4217 := Iso4217 { alphabetic : string; numeric : string }.

(** derived [PartialEq] *)
Definition iso_eqb (a b : iso4217) : bool :=
  String.eqb (alphabetic a) (alphabetic b) && String.eqb (numeric a) (numeric b).

(** currency.rs 26-37 [struct Currency] *)
Record currency := Currency {
  cur_name : string; cur_symbol : string; cur_code : iso4217; cur_minor : N; cur_fractions : N }.

(** currency.rs 25, derived [PartialEq]: every field *)
Definition cur_eqb (a b : currency) : bool :=
  String.eqb (cur_name a) (cur_name b) && String.eqb (cur_symbol a) (cur_symbol b)
  && iso_eqb (cur_code a) (cur_code b)
  && N.eqb (cur_minor a) (cur_minor b) && N.eqb (cur_fractions a) (cur_fractions b).

(** currency.rs 40-48 [struct CurrencyPair], derived [PartialEq] *)
Definition pair_eqb (p q : currency * currency) : bool :=
  cur_eqb (fst p) (fst q) && cur_eqb (snd p) (snd q).

(** ** money.rs *)

(** money.rs 25-30 [struct Money] *)
Record money := Money { m_currency : currency; m_amount : R }.

(** money.rs 38-42 [PartialEq::eq]: compares the ISO codes only *)
Definition money_eqb (a b : money) : bool :=
  iso_eqb (cur_code (m_currency a)) (cur_code (m_currency b)) && Reqb (m_amount a) (m_amount b).

(** [f64::partial_cmp] on finite floats *)
Definition rcompare (x y : R) : comparison :=
  if Rltb x y then Lt else if Rltb y x then Gt else Eq.

(** money.rs 44-52 [PartialOrd::partial_cmp]: compares the whole currency *)
Definition money_partial_cmp (a b : money) : option comparison :=
  if cur_eqb (m_currency a) (m_currency b) then Some (rcompare (m_amount a) (m_amount b)) else None.

(** money.rs 83-96 [Add], 98-111 [Sub], 113-126 [Mul] *)
Definition money_add (a b : money) : res money :=
  if cur_eqb (m_currency a) (m_currency b) then Ret (Money (m_currency a) (m_amount a + m_amount b)) else Panic.
Definition money_sub (a b : money) : res money :=
  if cur_eqb (m_currency a) (m_currency b) then Ret (Money (m_currency a) (m_amount a - m_amount b)) else Panic.
Definition money_mul (a b : money) : res money :=
  if cur_eqb (m_currency a) (m_currency b) then Ret (Money (m_currency a) (m_amount a * m_amount b)) else Panic.
(** money.rs 128-141 [Div]; [None]: the amount of the result is not finite *)
Definition money_div (a b : money) : res (option money) :=
  if cur_eqb (m_currency a) (m_currency b) then
    Ret (match fdiv (m_amount a) (m_amount b) with Some x => Some (Money (m_currency a) x) | None => None end)
  else Panic.

(** ** exchange.rs *)

(** exchange.rs 34-43 [struct ExchangeRate] *)
Record exchange_rate := ExchangeRate { from_currency : currency; to_currency : currency; rate : R }.

(** exchange.rs 23-29 [struct Exchange] *)
Definition exchange := list ((currency * currency) * exchange_rate).

(** exchange.rs 59-63 [new] *)
Definition exchange_new : exchange := [].

(** exchange.rs 82-89 [add_rate] *)
Definition add_rate (e : exchange) (r : exchange_rate) : exchange :=
  hm_insert pair_eqb (from_currency r, to_currency r) r e.

(** exchange.rs 113-124 [get_rate] *)
Definition get_rate (e : exchange) (from to : currency) : option exchange_rate :=
  hm_get pair_eqb (from, to) e.

(** exchange.rs 199-208 [ExchangeRate::convert] *)
Definition rate_convert (r : exchange_rate) (m : money) : res money :=
  if cur_eqb (m_currency m) (from_currency r) then Ret (Money (to_currency r) (m_amount m * rate r)) else Panic.

(** exchange.rs 148-158 [Exchange::convert] *)
Definition convert (e : exchange) (m : money) (to : currency) : res money :=
  let! r := unwrap (get_rate e (m_currency m) to) in rate_convert r m.

(** ** RustQuant_portfolios/src/lib.rs *)

Section portfolio.
  (** the instrument type [I]; no operation looks at the instrument *)
  Context {I : Type}.

  (** lib.rs 92-107 [struct Position] *)
  Record position := Position {
    p_instrument : I; p_quantity : N; p_purchase_price : R; p_current_price : R; p_currency : option currency }.

  (** [quantity as f64] (rounding above 2^53 is ignored) *)
  Definition as_f64 (q : N) : R := INR (N.to_nat q).

  (** lib.rs 135-137 [Position::value] *)
  Definition pos_value (p : position) : R := as_f64 (p_quantity p) * p_current_price p.

  (** lib.rs 140-142 [Position::profit] *)
  Definition pos_profit (p : position) : R := pos_value p - as_f64 (p_quantity p) * p_purchase_price p.

  (** lib.rs 145-147 [Position::update_price] *)
  Definition pos_update_price (new_price : R) (p : position) : position :=
    Position (p_instrument p) (p_quantity p) (p_purchase_price p) new_price (p_currency p).

  (** lib.rs 150-152 [Position::update_quantity] *)
  Definition pos_update_quantity (new_quantity : N) (p : position) : position :=
    Position (p_instrument p) new_quantity (p_purchase_price p) (p_current_price p) (p_currency p).

  (** lib.rs 86-89 [struct Portfolio], 160-163 [new] *)
  Definition portfolio := list (string * position).

  (** lib.rs 166-169 [value] *)
  Definition pf_value (p : portfolio) : R := rsum (map (fun kv => pos_value (snd kv)) p).

  (** lib.rs 172-178 [cost] *)
  Definition pf_cost (p : portfolio) : R :=
    rsum (map (fun kv => as_f64 (p_quantity (snd kv)) * p_purchase_price (snd kv)) p).

  (** lib.rs 181-184 [profit] *)
  Definition pf_profit (p : portfolio) : R := rsum (map (fun kv => pos_profit (snd kv)) p).

  (** lib.rs 191-196 [update_price], 203-208 [update_quantity] *)
  Definition pf_update_price (p : portfolio) (name : string) (new_price : R) : res portfolio :=
    hm_update String.eqb name (pos_update_price new_price) p.
  Definition pf_update_quantity (p : portfolio) (name : string) (new_quantity : N) : res portfolio :=
    hm_update String.eqb name (pos_update_quantity new_quantity) p.

  (** lib.rs 211-225 [position_weights]; [None]: not finite *)
  Definition pf_weights (p : portfolio) : list (string * option R) :=
    let current_value := pf_value p in
    map (fun kv => (fst kv, fdiv (pos_value (snd kv)) current_value)) p.
End portfolio.
Arguments position : clear implicits.
Arguments portfolio : clear implicits.
