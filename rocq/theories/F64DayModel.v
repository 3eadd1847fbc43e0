(** The day-count conventions with binary64 arithmetic (crates/RustQuant_time/src/day_counting.rs).
    The integer parts are those of [DayCountModel]: dates, days and numerators are exact integers
    ([i32] and [i64] never overflow on valid dates); every conversion [as f64], division, sum and
    difference is the IEEE 754 one. *)
From Coq Require Import ZArith List Bool.
From Verif Require Import Res DateModel CalModel DayCountModel F64Model.
Import ListNotations.
Open Scope Z_scope.

(** [n as f64] *)
Definition of_int (n : Z) : f64 := lit n 0.
(** [n as f64 / d] *)
Definition over64 (n : Z) (d : f64) : f64 := fdiv (of_int n) d.
(** the literals 360.0, 364.0, 365.0, 365.25, 366.0 *)
Definition d360 : f64 := lit 360 0.
Definition d364 : f64 := lit 364 0.
Definition d365 : f64 := lit 365 0.
Definition d366 : f64 := lit 366 0.
Definition d365_25 : f64 := lit 1461 (-2).

(** 130-151 *)
Definition afb64 (a b : date) : res f64 :=
  let! s0 := unwrap (from_ymd (year a) (month b) (day b)) in
  let! stub := if date_ltb s0 a then unwrap (from_ymd (year a + 1) (month b) (day b)) else Ret s0 in
  if contains_leap_year a stub
  then Ret (fadd (of_int (year b - year stub)) (over64 (whole_days a stub) d366))
  else Ret (over64 (whole_days a b) d365).
(** 159-189 *)
Definition isda64 (a b : date) : res f64 :=
  if date_eqb a b then Ret zero else
  let! j1 := unwrap (from_ymd (year a + 1) 1 1) in
  let! j2 := unwrap (from_ymd (year b) 1 1) in
  let sum := of_int (year b - year a - 1) in
  let sum := fadd sum (over64 (days_between a j1) (if is_leap (year a) then d366 else d365)) in
  let sum := fadd sum (over64 (days_between j2 b) (if is_leap (year b) then d366 else d365)) in
  Ret sum.
(** 192-206: the subtraction is done in floating point *)
Definition nl64 (den : f64) (a b : date) : f64 := fdiv (fsub (of_int (whole_days a b)) (of_int (leap_year_count a b))) den.
(** 229-251 *)
Definition leap64 (a b : date) : f64 := if contains_leap_year a b then over64 (whole_days a b) d366 else over64 (whole_days a b) d365.
(** 259-272 *)
Definition isda30_64 (a b : date) : f64 :=
  let d1 := if day a =? 31 then 30 else day a in
  let d2 := if (d1 =? 30) && (day b =? 31) then 30 else day b in
  over64 (numerator (year a) (year b) (month a) (month b) d1 d2) d360.
(** 275-288 *)
Definition e30_64 (a b : date) : f64 :=
  let d1 := if day a =? 31 then 30 else day a in
  let d2 := if day b =? 31 then 30 else day b in
  over64 (numerator (year a) (year b) (month a) (month b) d1 d2) d360.
(** 291-304; 354-367 with divisor 365 *)
Definition e30_isda64 (den : f64) (a b : date) : f64 :=
  let d1 := if (day a =? 31) || is_last_day_of_february a then 30 else day a in
  let d2 := if (day b =? 31) || is_last_day_of_february b then 30 else day b in
  over64 (numerator (year a) (year b) (month a) (month b) d1 d2) den.
(** 307-320 *)
Definition e30_plus64 (a b : date) : res f64 :=
  let d1 := if day a =? 31 then 30 else day a in
  let! e := if day b =? 31 then unwrap (next_day b) else Ret b in
  Ret (over64 (numerator (year a) (year e) (month a) (month e) d1 (day e)) d360).
(** 323-336 *)
Definition u30_64 (a b : date) : f64 :=
  let d1 := if (day a =? 31) || is_last_day_of_february a then 30 else day a in
  let d2 := if ((day b =? 31) && (d1 =? 30)) || is_last_day_of_february b then 30 else day b in
  over64 (numerator (year a) (year b) (month a) (month b) d1 d2) d360.

(** 105-127 [day_count_factor] *)
Definition day_count64 (c : convention) (a b : date) : res f64 :=
  match c with
  | One_One => Ret one
  | Actual_360 => Ret (over64 (whole_days a b) d360)
  | Actual_364 => Ret (over64 (whole_days a b) d364)
  | Actual_366 => Ret (over64 (whole_days a b) d366)
  | Actual_365_25 => Ret (over64 (whole_days a b) d365_25)
  | Actual_365_Actual => Ret (leap64 a b)
  | Actual_365_Fixed => Ret (over64 (whole_days a b) d365)
  | Actual_365_Leap => Ret (leap64 a b)
  | Actual_Actual_AFB => afb64 a b
  | Actual_Actual_ICMA => Panic
  | Actual_Actual_ISDA => isda64 a b
  | No_Leap_360 => Ret (nl64 d360 a b)
  | No_Leap_365 => Ret (nl64 d365 a b)
  | Thirty_360_ISDA => Ret (isda30_64 a b)
  | Thirty_E_360 => Ret (e30_64 a b)
  | Thirty_E_360_ISDA => Ret (e30_isda64 d360 a b)
  | Thirty_E_365 => Ret (e30_isda64 d365 a b)
  | Thirty_E_Plus_360 => e30_plus64 a b
  | Thirty_U_360 => Ret (u30_64 a b)
  end.

(** calendar.rs 375-380 [day_count_factors] *)
Definition day_count_factors64 (c : convention) (ds : list date) : res (list f64) :=
  sequence (windows (day_count64 c) ds).
