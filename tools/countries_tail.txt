
(** ** countries/israel.rs *)
(** 17-34 [JEWISH_HOLIDAYS], as (month, day) *)
Definition jewish_holidays : list (Z * Z) :=
  [(12, 29); (1, 1); (1, 2); (1, 9); (1, 10); (1, 14); (1, 15); (1, 22); (1, 23); (6, 14); (7, 14); (7, 15);
   (7, 20); (7, 21); (9, 5); (9, 6)].
(** 41-73; [hebrew] gives the ordinal of the Hebrew month, the day of the month and
    whether the Hebrew year is a leap year *)
Definition israel_rule (hebrew : date -> Z * Z * bool) (dt : date) : bool :=
  let '(hm0, hd, leap) := hebrew dt in
  let wd := weekday dt in
  let hm := if leap && (7 <? hm0) then hm0 - 1 else hm0 in
  let independence :=
    ((hm =? 8) && (3 <=? hd) && (hd <=? 4) && (wd =? Thu)) || ((hm =? 8) && (2 <=? hd) && (hd <=? 3) && (wd =? Wed))
    || ((hm =? 8) && (hd =? 5) && (wd =? Mon)) || ((hm =? 8) && (hd =? 6) && (wd =? Tue))
    || ((hm =? 8) && (hd =? 5) && (wd =? Wed)) || ((hm =? 8) && (hd =? 4) && (wd =? Tue)) in
  let tisha := ((hm =? 11) && (hd =? 10) && (wd =? Sun)) || ((hm =? 11) && (hd =? 9) && (wd =? Sat)) || ((hm =? 11) && (hd =? 9)) in
  existsb (fun p => (fst p =? hm) && (snd p =? hd)) jewish_holidays || independence || tisha.
Definition israel_holiday (hebrew : date -> Z * Z * bool) (dt : date) : option bool :=
  match easter_monday false (year dt) with None => None | Some _ => Some (israel_rule hebrew dt) end.

(** calendar.rs 20-90 [Market]; [None] and [Weekends] are the last two *)
Inductive market :=
  Argentina | Australia | Austria | Botswana | Brazil | Canada | Chile | China | CzechRepublic | Denmark | Finland
| France | Germany | HongKong | Hungary | Iceland | India | Indonesia | Israel | Italy | Mexico | Netherlands
| NewZealand | Singapore | UnitedKingdom | UnitedStates | Switzerland | NoMarket | Weekends.
(** calendar.rs 406-442, the match of [is_holiday] *)
Definition holiday_of (hebrew : date -> Z * Z * bool) (mk : market) : date -> option bool :=
  match mk with
  | Argentina => country argentina_rule
  | Australia => country australia_rule
  | Austria => country austria_rule
  | Botswana => country botswana_rule
  | Brazil => country brazil_rule
  | Canada => country canada_rule
  | Chile => country chile_rule
  | China => country china_rule
  | CzechRepublic => country czech_republic_rule
  | Denmark => country denmark_rule
  | Finland => country finland_rule
  | France => country france_rule
  | Germany => country germany_rule
  | HongKong => country hong_kong_rule
  | Hungary => country hungary_rule
  | Iceland => country iceland_rule
  | India => country india_rule
  | Indonesia => country indonesia_rule
  | Israel => israel_holiday hebrew
  | Italy => country italy_rule
  | Mexico => country mexico_rule
  | Netherlands => country netherlands_rule
  | NewZealand => country new_zealand_rule
  | Singapore => country singapore_rule
  | UnitedKingdom => country united_kingdom_rule
  | UnitedStates => country united_states_rule
  | Switzerland => country switzerland_rule
  | NoMarket | Weekends => fun _ => Some false
  end.
(** calendar.rs 119-124 [Calendar::new] *)
Definition market_calendar (hebrew : date -> Z * Z * bool) (mk : market) : calendar :=
  calendar_new (match mk with Israel => true | _ => false end) (holiday_of hebrew mk).
