(** Model of business-day calendars, date rolling and date utilities
    ([RustQuant_time]: calendar.rs, date_rolling.rs, utilities.rs).

    Simplifications:
    - the market's own holiday rule is a parameter of the calendar, of type
      [date -> option bool], [None] being a panic: the country functions index
      the Easter table and so panic outside 1901-2199. Individual countries are in [CountryModel];
    - [BTreeSet<Date>] is a list used only through membership;
    - [while] loops carry fuel; the theorems show it never runs out. *)
From Coq Require Import ZArith List Bool Lia.
From Verif Require Import Res DateModel.
Import ListNotations.
Open Scope Z_scope.

(** calendar.rs 106-113 [struct Calendar] *)
Record calendar := Calendar {
  israel : bool;                         (* market == Market::Israel *)
  market_holiday : date -> option bool;     (* is_holiday_impl_<market> *)
  extra : list date
}.

(** calendar.rs 119-124 [new] *)
Definition calendar_new (isr : bool) (h : date -> option bool) : calendar := Calendar isr h [].
(** calendar.rs 132-134 [add_holiday] *)
Definition add_holiday (c : calendar) (d : date) : calendar :=
  Calendar (israel c) (market_holiday c) (d :: extra c).
(** calendar.rs 137-141 [add_holidays] *)
Definition add_holidays (c : calendar) (ds : list date) : calendar := fold_left add_holiday ds c.
(** calendar.rs 144-146 [extra_holidays]: membership *)
Definition is_extra (c : calendar) (d : date) : bool := existsb (date_eqb d) (extra c).

(** calendar.rs 154-161 [is_weekend]; Friday = 4, Saturday = 5, Sunday = 6 *)
Definition is_weekend (c : calendar) (d : date) : bool :=
  if israel c then (weekday d =? 4) || (weekday d =? 5)
  else (weekday d =? 5) || (weekday d =? 6).
(** calendar.rs 406-442 [is_holiday]: [||] does not evaluate the market rule
    when the date is an extra holiday *)
Definition is_holiday (c : calendar) (d : date) : res bool :=
  if is_extra c d then Ret true else unwrap (market_holiday c d).
(** calendar.rs 149-151 [is_business_day] *)
Definition is_business_day (c : calendar) (d : date) : res bool :=
  if is_weekend c d then Ret false
  else let! h := is_holiday c d in Ret (negb h).

(** utilities.rs 153-161 [next_business_day] *)
Fixpoint next_bd_loop (fuel : nat) (c : calendar) (d : date) : res date :=
  match fuel with
  | O => NoFuel
  | S f =>
      let! b := is_business_day c d in
      if b then Ret d
      else let! d' := unwrap (next_day d) in next_bd_loop f c d'
  end.
Definition next_business_day (c : calendar) (d : date) : res date :=
  next_bd_loop (S (Z.to_nat (daynum date_max - daynum d))) c d.
(** utilities.rs 164-172 [previous_business_day] *)
Fixpoint prev_bd_loop (fuel : nat) (c : calendar) (d : date) : res date :=
  match fuel with
  | O => NoFuel
  | S f =>
      let! b := is_business_day c d in
      if b then Ret d
      else let! d' := unwrap (previous_day d) in prev_bd_loop f c d'
  end.
Definition previous_business_day (c : calendar) (d : date) : res date :=
  prev_bd_loop (S (Z.to_nat (daynum d - daynum date_min))) c d.

(** date_rolling.rs 27-54 [enum DateRollingConvention] *)
Inductive rolling := Actual | Following | ModifiedFollowing | Preceding | ModifiedPreceding | ModifiedRolling.

(** date_rolling.rs 81-89 *)
Definition roll_modified_following (c : calendar) (d : date) : res date :=
  let! n := next_business_day c d in
  if month n =? month d then Ret n else previous_business_day c d.
(** date_rolling.rs 93-101 *)
Definition roll_modified_preceding (c : calendar) (d : date) : res date :=
  let! n := previous_business_day c d in
  if month n =? month d then Ret n else next_business_day c d.
(** calendar.rs 164-183 [roll_date]; date_rolling.rs 68-118 *)
Definition roll_date (c : calendar) (d : date) (r : rolling) : res date :=
  match r with
  | Actual => Ret d
  | Following => next_business_day c d
  | ModifiedFollowing => roll_modified_following c d
  | Preceding => previous_business_day c d
  | ModifiedPreceding => roll_modified_preceding c d
  | ModifiedRolling => next_business_day c d   (* date_rolling.rs 105-113: the same loop *)
  end.
(** calendar.rs 186-191 [roll_dates] *)
Fixpoint roll_dates (c : calendar) (ds : list date) (r : rolling) : res (list date) :=
  match ds with
  | [] => Ret []
  | d :: ds' => let! x := roll_date c d r in let! xs := roll_dates c ds' r in Ret (x :: xs)
  end.

(** calendar.rs 214-216 [calendar_day_count] *)
Definition calendar_day_count (d1 d2 : date) : Z := daynum d2 - daynum d1.

(** calendar.rs 239-251 [business_day_count]; [temp_date += 1 day] panics at
    9999-12-31 *)
Fixpoint bd_count_loop (fuel : nat) (c : calendar) (t d2 : date) (n : Z) : res Z :=
  match fuel with
  | O => NoFuel
  | S f =>
      if date_leb t d2 then
        let! b := is_business_day c t in
        let! t' := unwrap (next_day t) in
        bd_count_loop f c t' d2 (if b then n + 1 else n)
      else Ret n
  end.
Definition business_day_count (c : calendar) (d1 d2 : date) : res Z :=
  bd_count_loop (S (S (Z.to_nat (daynum d2 - daynum d1)))) c d1 d2 0.

(** calendar.rs 308-313, 340-345 [.windows(2).map(..)] *)
Fixpoint windows {A B} (f : A -> A -> B) (l : list A) : list B :=
  match l with
  | a :: ((b :: _) as l') => f a b :: windows f l'
  | _ => []
  end.
Definition calendar_day_counts (ds : list date) : list Z := windows calendar_day_count ds.
Fixpoint sequence {A} (l : list (res A)) : res (list A) :=
  match l with
  | [] => Ret []
  | x :: l' => let! a := x in let! r := sequence l' in Ret (a :: r)
  end.
Definition business_day_counts (c : calendar) (ds : list date) : res (list Z) :=
  sequence (windows (business_day_count c) ds).

(** ** utilities.rs *)

(** 57-61, 64-66 *)
Definition is_weekend_util (d : date) : bool := (weekday d =? 5) || (weekday d =? 6).
Definition is_weekday_util (d : date) : bool := negb (is_weekend_util d).
(** 69-71 [get_years_in_range]: [(start.year()..=end.year())] *)
Definition years_in_range (a b : date) : list Z :=
  map (fun k => year a + Z.of_nat k) (seq 0 (Z.to_nat (year b - year a + 1))).
(** 95-100 *)
Definition days_in_years_in_range (a b : date) : list Z := map days_in_year (years_in_range a b).
(** 103-107 *)
Definition contains_leap_year (a b : date) : bool := existsb is_leap (years_in_range a b).
(** 110-112 *)
Definition days_between (a b : date) : Z := Z.abs (daynum b - daynum a).
(** 127-133 *)
Definition leap_year_count (a b : date) : Z := Z.of_nat (length (filter is_leap (years_in_range a b))).
(** 136-138 *)
Definition is_first_day_of_month (d : date) : bool := day d =? 1.
(** 141-143 *)
Definition is_last_day_of_month (d : date) : bool := day d =? month_length (year d) (month d).
(** 146-153 *)
Definition is_last_day_of_february (d : date) : bool :=
  ((month d =? 2) && (day d =? 28) && negb (is_leap (year d))) ||
  ((month d =? 2) && (day d =? 29) && is_leap (year d)).

(** 180-190 [date_sequence]; [Vec::with_capacity] of a negative number of days
    cast to [usize] panics (capacity overflow), and so does stepping past
    9999-12-31 *)
Fixpoint date_seq_loop (fuel : nat) (t e : date) : res (list date) :=
  match fuel with
  | O => NoFuel
  | S f =>
      if date_leb t e then
        let! t' := unwrap (next_day t) in
        let! r := date_seq_loop f t' e in Ret (t :: r)
      else Ret []
  end.
Definition date_sequence (a b : date) : res (list date) :=
  if daynum b - daynum a <? 0 then Panic
  else date_seq_loop (S (S (Z.to_nat (daynum b - daynum a)))) a b.

(** [Result<_, Error>]: [None] is the error of [from_calendar_date] *)
(** 193-195 [get_first_day_of_month] *)
Definition first_day_of_month (y m : Z) : option Z :=
  match from_ymd y m 1 with Some d => Some (weekday d) | None => None end.
(** 198-204 [get_last_day_of_month] *)
Definition last_day_of_month (y m : Z) : res (option Z) :=
  match from_ymd y m 1 with
  | None => Ret None
  | Some d => let! e := add_days (Z.to_nat (month_length y m)) d in Ret (Some (weekday e))
  end.
(** 207-275 [get_first_<weekday>_of_month], one function per weekday [wd] *)
Definition first_weekday_of_month (wd y m : Z) : res (option date) :=
  match from_ymd y m 1 with
  | None => Ret None
  | Some d => if weekday d =? wd then Ret (Some d)
              else let! e := next_occurrence wd d in Ret (Some e)
  end.
(** 278-352 [get_last_<weekday>_of_month] *)
Definition last_weekday_of_month (wd y m : Z) : res (option date) :=
  match from_ymd y m (month_length y m) with
  | None => Ret None
  | Some d => if weekday d =? wd then Ret (Some d)
              else let! e := prev_occurrence wd d in Ret (Some e)
  end.
