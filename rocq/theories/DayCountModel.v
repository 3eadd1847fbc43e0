(** Model of the day-count conventions (RustQuant_time/src/day_counting.rs),
    of [infer_frequency] (frequency.rs) and of the Easter tables
    (constants.rs, utilities.rs).

    The [f64] results are exact rationals here: rounding of the final division
    is not modelled. A panic ([unwrap] of an invalid date, [todo!()]) is
    [Panic]. *)
From Coq Require Import ZArith QArith List Bool.
From Verif Require Import Res DateModel CalModel.
Import ListNotations.
Open Scope Z_scope.

(** day_counting.rs 34-97 *)
Inductive convention :=
  One_One | Actual_360 | Actual_364 | Actual_366 | Actual_365_25 | Actual_365_Actual
| Actual_365_Fixed | Actual_365_Leap | Actual_Actual_AFB | Actual_Actual_ICMA | Actual_Actual_ISDA
| No_Leap_360 | No_Leap_365 | Thirty_360_ISDA | Thirty_E_360 | Thirty_E_360_ISDA | Thirty_E_365
| Thirty_E_Plus_360 | Thirty_U_360.

Definition over (n : Z) (q : Q) : Q := (inject_Z n / q)%Q.
(** [(end - start).whole_days()] *)
Definition whole_days (a b : date) : Z := daynum b - daynum a.

(** 130-151 *)
Definition dcf_afb (a b : date) : res Q :=
  let! s0 := unwrap (from_ymd (year a) (month b) (day b)) in
  let! stub := if date_ltb s0 a then unwrap (from_ymd (year a + 1) (month b) (day b)) else Ret s0 in
  if contains_leap_year a stub
  then Ret (inject_Z (year b - year stub) + over (whole_days a stub) 366)%Q
  else Ret (over (whole_days a b) 365).
(** 159-189 *)
Definition dcf_isda (a b : date) : res Q :=
  if date_eqb a b then Ret 0%Q else
  let! j1 := unwrap (from_ymd (year a + 1) 1 1) in
  let! j2 := unwrap (from_ymd (year b) 1 1) in
  Ret (inject_Z (year b - year a - 1)
       + over (days_between a j1) (inject_Z (if is_leap (year a) then 366 else 365))
       + over (days_between j2 b) (inject_Z (if is_leap (year b) then 366 else 365)))%Q.
(** 192-206 *)
Definition dcf_nl (den : Q) (a b : date) : Q := over (whole_days a b - leap_year_count a b) den.
(** 229-251 *)
Definition dcf_365_leap (a b : date) : Q :=
  if contains_leap_year a b then over (whole_days a b) 366 else over (whole_days a b) 365.
(** 372-381 [thirty_360_numerator] *)
Definition numerator (y1 y2 m1 m2 d1 d2 : Z) : Z := 360 * (y2 - y1) + 30 * (m2 - m1) + (d2 - d1).
(** 259-272 *)
Definition dcf_30_isda (a b : date) : Q :=
  let d1 := if day a =? 31 then 30 else day a in
  let d2 := if (d1 =? 30) && (day b =? 31) then 30 else day b in
  over (numerator (year a) (year b) (month a) (month b) d1 d2) 360.
(** 275-288 *)
Definition dcf_30e (a b : date) : Q :=
  let d1 := if day a =? 31 then 30 else day a in
  let d2 := if day b =? 31 then 30 else day b in
  over (numerator (year a) (year b) (month a) (month b) d1 d2) 360.
(** 291-304; 354-367 with divisor 365 *)
Definition dcf_30e_isda (den : Q) (a b : date) : Q :=
  let d1 := if (day a =? 31) || is_last_day_of_february a then 30 else day a in
  let d2 := if (day b =? 31) || is_last_day_of_february b then 30 else day b in
  over (numerator (year a) (year b) (month a) (month b) d1 d2) den.
(** 307-320 *)
Definition dcf_30e_plus (a b : date) : res Q :=
  let d1 := if day a =? 31 then 30 else day a in
  let! e := if day b =? 31 then unwrap (next_day b) else Ret b in
  Ret (over (numerator (year a) (year e) (month a) (month e) d1 (day e)) 360).
(** 323-336; [&&] binds tighter than [||] *)
Definition dcf_30u (a b : date) : Q :=
  let d1 := if (day a =? 31) || is_last_day_of_february a then 30 else day a in
  let d2 := if ((day b =? 31) && (d1 =? 30)) || is_last_day_of_february b then 30 else day b in
  over (numerator (year a) (year b) (month a) (month b) d1 d2) 360.

(** 105-127 [day_count_factor] *)
Definition day_count_factor (c : convention) (a b : date) : res Q :=
  match c with
  | One_One => Ret 1%Q
  | Actual_360 => Ret (over (whole_days a b) 360)
  | Actual_364 => Ret (over (whole_days a b) 364)
  | Actual_366 => Ret (over (whole_days a b) 366)
  | Actual_365_25 => Ret (over (whole_days a b) (1461 # 4))
  | Actual_365_Actual => Ret (dcf_365_leap a b)
  | Actual_365_Fixed => Ret (over (whole_days a b) 365)
  | Actual_365_Leap => Ret (dcf_365_leap a b)
  | Actual_Actual_AFB => dcf_afb a b
  | Actual_Actual_ICMA => Panic
  | Actual_Actual_ISDA => dcf_isda a b
  | No_Leap_360 => Ret (dcf_nl 360 a b)
  | No_Leap_365 => Ret (dcf_nl 365 a b)
  | Thirty_360_ISDA => Ret (dcf_30_isda a b)
  | Thirty_E_360 => Ret (dcf_30e a b)
  | Thirty_E_360_ISDA => Ret (dcf_30e_isda 360 a b)
  | Thirty_E_365 => Ret (dcf_30e_isda 365 a b)
  | Thirty_E_Plus_360 => dcf_30e_plus a b
  | Thirty_U_360 => Ret (dcf_30u a b)
  end.

(** calendar.rs 375-380 [day_count_factors] *)
Definition day_count_factors (c : convention) (ds : list date) : res (list Q) :=
  sequence (windows (day_count_factor c) ds).

(** calendar.rs 383-408 [generate_schedule_from_dates]; [today] is an input *)
Record schedule := Schedule { sch_dates : list date; sch_factors : list Q }.
Definition generate_schedule (cal : calendar) (today : date) (ds : list date) (r : rolling) (c : convention)
  : res schedule :=
  let! rolled := roll_dates cal ds r in
  let! fs := day_count_factors c rolled in
  let! first := unwrap (hd_error rolled) in
  let! f0 := day_count_factor c today first in
  Ret (Schedule rolled (f0 :: fs)).

(** frequency.rs 22-54; constants.rs 30-40 *)
Inductive frequency := Daily | Weekly | BiWeekly | SemiMonthly | Monthly | SemiQuarterly | Quarterly
| TriAnnually | SemiAnnually | Annually | FZero.
Definition per_year (f : frequency) : Z :=
  match f with Daily => 252 | Weekly => 52 | BiWeekly => 26 | SemiMonthly => 24 | Monthly => 12
  | SemiQuarterly => 6 | Quarterly => 4 | TriAnnually => 3 | SemiAnnually => 2 | Annually => 1 | FZero => 0 end.
(** frequency.rs 64-91 [infer_frequency] *)
Definition infer_frequency (a b : date) : res frequency :=
  let diff := whole_days a b in
  if diff =? 1 then Ret Daily
  else if diff =? 7 then Ret Weekly
  else if diff =? 14 then Ret BiWeekly
  else if (14 <? diff) && (diff <? 16) then Ret SemiMonthly
  else if (28 <=? diff) && (diff <=? 31) then Ret Monthly
  else if (45 <=? diff) && (diff <=? 46) then Ret SemiQuarterly
  else if (91 <=? diff) && (diff <=? 92) then Ret Quarterly
  else if (121 <=? diff) && (diff <=? 122) then Ret TriAnnually
  else if (182 <=? diff) && (diff <=? 183) then Ret SemiAnnually
  else if (365 <=? diff) && (diff <=? 366) then Ret Annually
  else Panic.

(** constants.rs 44-77 [EASTER_MONDAYS] *)
Definition western_mondays : list Z := [
  98; 90; 103; 95; 114; 106; 91; 111; 102; 87; 107; 99; 83; 103; 95; 115; 99; 91; 111; 96;
  87; 107; 92; 112; 103; 95; 108; 100; 91; 111; 96; 88; 107; 92; 112; 104; 88; 108; 100; 85;
  104; 96; 116; 101; 92; 112; 97; 89; 108; 100; 85; 105; 96; 109; 101; 93; 112; 97; 89; 109;
  93; 113; 105; 90; 109; 101; 86; 106; 97; 89; 102; 94; 113; 105; 90; 110; 101; 86; 106; 98;
  110; 102; 94; 114; 98; 90; 110; 95; 86; 106; 91; 111; 102; 94; 107; 99; 90; 103; 95; 115;
  106; 91; 111; 103; 87; 107; 99; 84; 103; 95; 115; 100; 91; 111; 96; 88; 107; 92; 112; 104;
  95; 108; 100; 92; 111; 96; 88; 108; 92; 112; 104; 89; 108; 100; 85; 105; 96; 116; 101; 93;
  112; 97; 89; 109; 100; 85; 105; 97; 109; 101; 93; 113; 97; 89; 109; 94; 113; 105; 90; 110;
  101; 86; 106; 98; 89; 102; 94; 114; 105; 90; 110; 102; 86; 106; 98; 111; 102; 94; 114; 99;
  90; 110; 95; 87; 106; 91; 111; 103; 94; 107; 99; 91; 103; 95; 115; 107; 91; 111; 103; 88;
  108; 100; 85; 105; 96; 109; 101; 93; 112; 97; 89; 109; 93; 113; 105; 90; 109; 101; 86; 106;
  97; 89; 102; 94; 113; 105; 90; 110; 101; 86; 106; 98; 110; 102; 94; 114; 98; 90; 110; 95;
  86; 106; 91; 111; 102; 94; 107; 99; 90; 103; 95; 115; 106; 91; 111; 103; 87; 107; 99; 84;
  103; 95; 115; 100; 91; 111; 96; 88; 107; 92; 112; 104; 95; 108; 100; 92; 111; 96; 88; 108;
  92; 112; 104; 89; 108; 100; 85; 105; 96; 116; 101; 93; 112; 97; 89; 109; 100; 85; 105].
(** constants.rs 44-110 [EASTER_MONDAYS] *)
Definition orthodox_mondays : list Z := [
  105; 118; 110; 102; 121; 106; 126; 118; 102; 122; 114; 99; 118; 110; 95; 115; 106; 126; 111; 103;
  122; 107; 99; 119; 110; 123; 115; 107; 126; 111; 103; 123; 107; 99; 119; 104; 123; 115; 100; 120;
  111; 96; 116; 108; 127; 112; 104; 124; 115; 100; 120; 112; 96; 116; 108; 128; 112; 104; 124; 109;
  100; 120; 105; 125; 116; 101; 121; 113; 104; 117; 109; 101; 120; 105; 125; 117; 101; 121; 113; 98;
  117; 109; 129; 114; 105; 125; 110; 102; 121; 106; 98; 118; 109; 122; 114; 106; 118; 110; 102; 122;
  106; 126; 118; 103; 122; 114; 99; 119; 110; 95; 115; 107; 126; 111; 103; 123; 107; 99; 119; 111;
  123; 115; 107; 127; 111; 103; 123; 108; 99; 119; 104; 124; 115; 100; 120; 112; 96; 116; 108; 128;
  112; 104; 124; 116; 100; 120; 112; 97; 116; 108; 128; 113; 104; 124; 109; 101; 120; 105; 125; 117;
  101; 121; 113; 105; 117; 109; 101; 121; 105; 125; 110; 102; 121; 113; 98; 118; 109; 129; 114; 106;
  125; 110; 102; 122; 106; 98; 118; 110; 122; 114; 99; 119; 110; 102; 115; 107; 126; 118; 103; 123;
  115; 100; 120; 112; 96; 116; 108; 128; 112; 104; 124; 109; 100; 120; 105; 125; 116; 108; 121; 113;
  104; 124; 109; 101; 120; 105; 125; 117; 101; 121; 113; 98; 117; 109; 129; 114; 105; 125; 110; 102;
  121; 113; 98; 118; 109; 129; 114; 106; 125; 110; 102; 122; 106; 126; 118; 103; 122; 114; 99; 119;
  110; 102; 115; 107; 126; 111; 103; 123; 114; 99; 119; 111; 130; 115; 107; 127; 111; 103; 123; 108;
  99; 119; 104; 124; 115; 100; 120; 112; 103; 116; 108; 128; 119; 104; 124; 116; 100; 120; 112].

(** utilities.rs 44-46 [easter_monday]: [EASTER_MONDAYS[orthodox][year - 1901]];
    a year outside 1901-2199 indexes out of bounds and panics *)
Definition easter_monday (y : Z) (orthodox : bool) : option Z :=
  if y <? 1901 then None
  else nth_error (if orthodox then orthodox_mondays else western_mondays) (Z.to_nat (y - 1901)).
