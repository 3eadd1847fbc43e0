(** Model of the national holiday calendars ([RustQuant_time]: countries/*.rs,
    constants.rs, [unpack_date] and [easter_monday] in utilities.rs).

    The country definitions are produced by tools/gen_countries.py from the Rust
    text: one definition per Rust function, with the same boolean structure.
    Arguments: year, month (1-12), day, weekday (Monday = 0), day of the year, and
    the Easter Monday entry of the table.

    Israel depends on the Hebrew calendar of the [icu] crate: its conversion is a
    parameter. *)
From Coq Require Import ZArith List Bool.
From Verif Require Import Res DateModel CalModel.
Import ListNotations.
Open Scope Z_scope.

Notation Mon := 0 (only parsing).
Notation Tue := 1 (only parsing).
Notation Wed := 2 (only parsing).
Notation Thu := 3 (only parsing).
Notation Fri := 4 (only parsing).
Notation Sat := 5 (only parsing).
Notation Sun := 6 (only parsing).

(** constants.rs 43-110 [EASTER_MONDAYS], first row *)
Definition western_easter_mondays : list Z :=
  [98; 90; 103; 95; 114; 106; 91; 111; 102; 87; 107; 99; 83; 103; 95; 115; 99; 91; 111; 96;
   87; 107; 92; 112; 103; 95; 108; 100; 91; 111; 96; 88; 107; 92; 112; 104; 88; 108; 100; 85;
   104; 96; 116; 101; 92; 112; 97; 89; 108; 100; 85; 105; 96; 109; 101; 93; 112; 97; 89; 109;
   93; 113; 105; 90; 109; 101; 86; 106; 97; 89; 102; 94; 113; 105; 90; 110; 101; 86; 106; 98;
   110; 102; 94; 114; 98; 90; 110; 95; 86; 106; 91; 111; 102; 94; 107; 99; 90; 103; 95; 115;
   106; 91; 111; 103; 87; 107; 99; 84; 103; 95; 115; 100; 91; 111; 96; 88; 107; 92; 112; 104;
   95; 108; 100; 92; 111; 96; 88; 108; 92; 112; 104; 89; 108; 100; 85; 105; 96; 116; 101; 93;
   112; 97; 89; 109; 100; 85; 105; 97; 109; 101; 93; 113; 97; 89; 109; 94; 113; 105; 90; 110;
   101; 86; 106; 98; 89; 102; 94; 114; 105; 90; 110; 102; 86; 106; 98; 111; 102; 94; 114; 99;
   90; 110; 95; 87; 106; 91; 111; 103; 94; 107; 99; 91; 103; 95; 115; 107; 91; 111; 103; 88;
   108; 100; 85; 105; 96; 109; 101; 93; 112; 97; 89; 109; 93; 113; 105; 90; 109; 101; 86; 106;
   97; 89; 102; 94; 113; 105; 90; 110; 101; 86; 106; 98; 110; 102; 94; 114; 98; 90; 110; 95;
   86; 106; 91; 111; 102; 94; 107; 99; 90; 103; 95; 115; 106; 91; 111; 103; 87; 107; 99; 84;
   103; 95; 115; 100; 91; 111; 96; 88; 107; 92; 112; 104; 95; 108; 100; 92; 111; 96; 88; 108;
   92; 112; 104; 89; 108; 100; 85; 105; 96; 116; 101; 93; 112; 97; 89; 109; 100; 85; 105].
(** second row *)
Definition orthodox_easter_mondays : list Z :=
  [105; 118; 110; 102; 121; 106; 126; 118; 102; 122; 114; 99; 118; 110; 95; 115; 106; 126; 111; 103;
   122; 107; 99; 119; 110; 123; 115; 107; 126; 111; 103; 123; 107; 99; 119; 104; 123; 115; 100; 120;
   111; 96; 116; 108; 127; 112; 104; 124; 115; 100; 120; 112; 96; 116; 108; 128; 112; 104; 124; 109;
   100; 120; 105; 125; 116; 101; 121; 113; 104; 117; 109; 101; 120; 105; 125; 117; 101; 121; 113; 98;
   117; 109; 129; 114; 105; 125; 110; 102; 121; 106; 98; 118; 109; 122; 114; 106; 118; 110; 102; 122;
   106; 126; 118; 103; 122; 114; 99; 119; 110; 95; 115; 107; 126; 111; 103; 123; 107; 99; 119; 111;
   123; 115; 107; 127; 111; 103; 123; 108; 99; 119; 104; 124; 115; 100; 120; 112; 96; 116; 108; 128;
   112; 104; 124; 116; 100; 120; 112; 97; 116; 108; 128; 113; 104; 124; 109; 101; 120; 105; 125; 117;
   101; 121; 113; 105; 117; 109; 101; 121; 105; 125; 110; 102; 121; 113; 98; 118; 109; 129; 114; 106;
   125; 110; 102; 122; 106; 98; 118; 110; 122; 114; 99; 119; 110; 102; 115; 107; 126; 118; 103; 123;
   115; 100; 120; 112; 96; 116; 108; 128; 112; 104; 124; 109; 100; 120; 105; 125; 116; 108; 121; 113;
   104; 124; 109; 101; 120; 105; 125; 117; 101; 121; 113; 98; 117; 109; 129; 114; 105; 125; 110; 102;
   121; 113; 98; 118; 109; 129; 114; 106; 125; 110; 102; 122; 106; 126; 118; 103; 122; 114; 99; 119;
   110; 102; 115; 107; 126; 111; 103; 123; 114; 99; 119; 111; 130; 115; 107; 127; 111; 103; 123; 108;
   99; 119; 104; 124; 115; 100; 120; 112; 103; 116; 108; 128; 119; 104; 124; 116; 100; 120; 112].

(** utilities.rs 45-47 [easter_monday]: [EASTER_MONDAYS[..][year - 1901]] panics
    outside 1901-2199 (subtraction overflow below, index out of bounds above; a
    negative year cast to usize is out of bounds too) *)
Definition easter_monday (orthodox : bool) (y : Z) : option Z :=
  if y <? 1901 then None
  else nth_error (if orthodox then orthodox_easter_mondays else western_easter_mondays) (Z.to_nat (y - 1901)).

(** utilities.rs 30-42 [unpack_date] followed by the body of a country function *)
Definition country (rule : Z -> Z -> Z -> Z -> Z -> Z -> bool) (dt : date) : option bool :=
  match easter_monday false (year dt) with
  | None => None
  | Some em => Some (rule (year dt) (month dt) (day dt) (weekday dt) (ordinal dt) em)
  end.

(** ** countries/argentina.rs *)
(** 17-50 *)
Definition argentina_rule (y m d wd yd em : Z) : bool :=
  ((m =? 12) && (d =? 25))
  || (yd =? (em - 4))
  || (yd =? (em - 3))
  || ((d =? 1) && (m =? 5))
  || ((d =? 25) && (m =? 5))
  || (((15 <=? d) && (d <=? 21)) && (wd =? Mon) && (m =? 6))
  || ((d =? 9) && (m =? 7))
  || (((15 <=? d) && (d <=? 21)) && (wd =? Mon) && (m =? 8))
  || (((d =? 10) || (d =? 11) || (d =? 12) || (d =? 15) || (d =? 16)) && (wd =? Mon) && (m =? 10))
  || ((d =? 8) && (m =? 12))
  || ((m =? 12) && (d =? 24))
  || (((d =? 31) || ((d =? 30) && (wd =? Fri))) && (m =? 12)).
(** ** countries/australia.rs *)
(** 17-48 *)
Definition australia_rule (y m d wd yd em : Z) : bool :=
  (((d =? 1) || (((d =? 2) || (d =? 3)) && (wd =? Mon))) && (m =? 1))
  || (((d =? 26) || (((d =? 27) || (d =? 28)) && (wd =? Mon))) && (m =? 1))
  || (yd =? (em - 3))
  || (yd =? em)
  || ((d =? 25) && (m =? 4))
  || (((7 <? d) && (d <=? 14)) && (wd =? Mon) && (m =? 6))
  || ((d <=? 7) && (wd =? Mon) && (m =? 8))
  || ((d <=? 7) && (wd =? Mon) && (m =? 10))
  || (((d =? 25) || ((d =? 27) && ((wd =? Mon) || (wd =? Tue)))) && (m =? 12))
  || (((d =? 26) || ((d =? 28) && ((wd =? Mon) || (wd =? Tue)))) && (m =? 12))
  || ((d =? 22) && (m =? 9) && (y =? 2022)).
(** ** countries/austria.rs *)
(** 17-67 *)
Definition austria_rule (y m d wd yd em : Z) : bool :=
  ((d =? 1) && (m =? 1))
  || ((d =? 6) && (m =? 1))
  || (yd =? em)
  || (yd =? (em + 38))
  || (yd =? (em + 49))
  || (yd =? (em + 59))
  || ((d =? 1) && (m =? 5))
  || ((d =? 15) && (m =? 8))
  || ((d =? 26) && (m =? 10) && (1967 <=? y))
  || ((d =? 12) && (m =? 11) && ((1919 <=? y) && (y <=? 1934)))
  || ((d =? 1) && (m =? 11))
  || ((d =? 8) && (m =? 12))
  || ((d =? 25) && (m =? 12))
  || ((d =? 26) && (m =? 12)).
(** ** countries/botswana.rs *)
(** 17-58 *)
Definition botswana_rule (y m d wd yd em : Z) : bool :=
  (((d =? 1) || ((d =? 2) && (wd =? Mon)) || ((d =? 3) && (wd =? Tue))) && (m =? 1))
  || (yd =? (em - 3))
  || (yd =? em)
  || (((d =? 1) || ((d =? 2) && (wd =? Mon))) && (m =? 5))
  || (yd =? (em + 38))
  || (((d =? 1) || ((d =? 2) && (wd =? Mon))) && (m =? 7))
  || (((15 <=? d) && (d <=? 21)) && (wd =? Mon) && (m =? 7))
  || (((d =? 30) && (m =? 9)) || ((d =? 1) && (wd =? Mon) && (m =? 10)))
  || (((d =? 1) || ((d =? 2) && (wd =? Mon)) || ((d =? 3) && (wd =? Tue))) && (m =? 10))
  || ((d =? 25) && (m =? 12))
  || (((d =? 26) || ((d =? 27) && (wd =? Mon))) && (m =? 12)).
(** ** countries/brazil.rs *)
(** 17-61 *)
Definition brazil_rule (y m d wd yd em : Z) : bool :=
  ((d =? 1) && (m =? 1))
  || ((d =? 21) && (m =? 4))
  || ((d =? 1) && (m =? 5))
  || ((d =? 7) && (m =? 9))
  || ((d =? 12) && (m =? 10))
  || ((d =? 2) && (m =? 11))
  || ((d =? 15) && (m =? 11))
  || ((d =? 20) && (m =? 11) && (2024 <=? y))
  || ((d =? 25) && (m =? 12))
  || (yd =? (em - 3))
  || ((yd =? (em - 49)) || (yd =? (em - 48)))
  || (yd =? (em + 59)).
(** ** countries/canada.rs *)
(** 17-62 *)
Definition canada_rule (y m d wd yd em : Z) : bool :=
  (((d =? 1) || (((d =? 2) || (d =? 3)) && (wd =? Mon))) && (m =? 1))
  || (((15 <=? d) && (d <=? 21)) && (wd =? Mon) && (m =? 2) && (2008 <=? y))
  || (yd =? (em - 3))
  || ((17 <? d) && (d <=? 24) && (wd =? Mon) && (m =? 5))
  || (((d =? 1) || (((d =? 2) || (d =? 3)) && (wd =? Mon))) && (m =? 7))
  || ((d <=? 7) && (wd =? Mon) && (m =? 8))
  || ((d <=? 7) && (wd =? Mon) && (m =? 9))
  || ((((d =? 30) && (m =? 9)) || ((d <=? 2) && (m =? 10) && (wd =? Mon))) && (2021 <=? y))
  || ((7 <? d) && (d <=? 14) && (wd =? Mon) && (m =? 10))
  || (((d =? 11) || (((d =? 12) || (d =? 13)) && (wd =? Mon))) && (m =? 11))
  || (((d =? 25) || ((d =? 27) && ((wd =? Mon) || (wd =? Tue)))) && (m =? 12))
  || (((d =? 26) || ((d =? 28) && ((wd =? Mon) || (wd =? Tue)))) && (m =? 12)).
(** ** countries/chile.rs *)
(** 17-79 *)
Definition chile_rule (y m d wd yd em : Z) : bool :=
  ((d =? 1) && (m =? 1))
  || ((d =? 2) && (m =? 1) && (wd =? Mon) && (2016 <? y))
  || (yd =? (em - 3))
  || (yd =? (em - 2))
  || ((d =? 1) && (m =? 5))
  || ((d =? 21) && (m =? 5))
  || ((d =? 21) && (m =? 6) && (2021 <=? y))
  || (((26 <=? d) && (d <=? 29)) && (m =? 6) && (wd =? Mon))
  || ((d =? 2) && (m =? 7) && (wd =? Mon))
  || ((d =? 16) && (m =? 7))
  || ((d =? 15) && (m =? 8))
  || ((d =? 17) && (m =? 9) && (((wd =? Mon) && (2007 <=? y)) || ((wd =? Fri) && (2016 <? y))))
  || ((d =? 18) && (m =? 9))
  || ((d =? 19) && (m =? 9))
  || ((d =? 20) && (m =? 9) && (wd =? Fri) && (2007 <=? y))
  || (((9 <=? d) && (d <=? 12)) && (m =? 10) && (wd =? Mon))
  || ((d =? 15) && (m =? 10) && (wd =? Mon))
  || ((((d =? 27) && (m =? 10) && (wd =? Fri)) || ((d =? 31) && (m =? 10) && negb (wd =? Tue)
    && negb (wd =? Wed)) || ((d =? 2) && (m =? 11) && (wd =? Fri))) && (2008 <=? y))
  || ((d =? 1) && (m =? 11))
  || ((d =? 8) && (m =? 12))
  || ((d =? 25) && (m =? 12)).
(** ** countries/china.rs *)
(** 17-163 *)
Definition china_rule (y m d wd yd em : Z) : bool :=
  ((d =? 1) && (m =? 1))
  || ((y =? 2005) && (d =? 3) && (m =? 1))
  || ((y =? 2006) && ((d =? 2) || (d =? 3)) && (m =? 1))
  || ((y =? 2007) && (d <=? 3) && (m =? 1))
  || ((y =? 2007) && (d =? 31) && (m =? 12))
  || ((y =? 2009) && (d =? 2) && (m =? 1))
  || ((y =? 2011) && (d =? 3) && (m =? 1))
  || ((y =? 2012) && ((d =? 2) || (d =? 3)) && (m =? 1))
  || ((y =? 2013) && (d <=? 3) && (m =? 1))
  || ((y =? 2014) && (d =? 1) && (m =? 1))
  || ((y =? 2015) && (d <=? 3) && (m =? 1))
  || ((y =? 2017) && (d =? 2) && (m =? 1))
  || ((y =? 2018) && (d =? 1) && (m =? 1))
  || ((y =? 2018) && (d =? 31) && (m =? 12))
  || ((y =? 2019) && (d =? 1) && (m =? 1))
  || ((y =? 2020) && (d =? 1) && (m =? 1))
  || ((y =? 2021) && (d =? 1) && (m =? 1))
  || ((y =? 2022) && (d =? 3) && (m =? 1))
  || ((y =? 2023) && (d =? 2) && (m =? 1))
  || ((y =? 2004) && ((19 <=? d) && (d <=? 28)) && (m =? 1))
  || ((y =? 2005) && ((7 <=? d) && (d <=? 15)) && (m =? 2))
  || ((y =? 2006) && (((26 <=? d) && (m =? 1)) || ((d <=? 3) && (m =? 2))))
  || ((y =? 2007) && ((17 <=? d) && (d <=? 25)) && (m =? 2))
  || ((y =? 2008) && ((6 <=? d) && (d <=? 12)) && (m =? 2))
  || ((y =? 2009) && ((26 <=? d) && (d <=? 30)) && (m =? 1))
  || ((y =? 2010) && ((15 <=? d) && (d <=? 19)) && (m =? 2))
  || ((y =? 2011) && ((2 <=? d) && (d <=? 8)) && (m =? 2))
  || ((y =? 2012) && ((23 <=? d) && (d <=? 28)) && (m =? 1))
  || ((y =? 2013) && ((11 <=? d) && (d <=? 15)) && (m =? 2))
  || ((y =? 2014) && (31 <=? d) && (m =? 1))
  || ((y =? 2014) && (d <=? 6) && (m =? 2))
  || ((y =? 2015) && ((18 <=? d) && (d <=? 24)) && (m =? 2))
  || ((y =? 2016) && ((8 <=? d) && (d <=? 12)) && (m =? 2))
  || ((y =? 2017) && (((27 <=? d) && (m =? 1)) || ((d <=? 2) && (m =? 2))))
  || ((y =? 2018) && (((15 <=? d) && (d <=? 21)) && (m =? 2)))
  || ((y =? 2019) && ((4 <=? d) && (d <=? 8)) && (m =? 2))
  || ((y =? 2020) && ((d =? 24) || ((27 <=? d) && (d <=? 31))) && (m =? 1))
  || ((y =? 2021) && ((d =? 11) || (d =? 12) || (d =? 15) || (d =? 16) || (d =? 17)) && (m =? 2))
  || ((y =? 2022) && (((d =? 31) && (m =? 1)) || ((d <=? 4) && (m =? 2))))
  || ((y =? 2023) && ((23 <=? d) && (d <=? 27)) && (m =? 1))
  || ((y <=? 2008) && (d =? 4) && (m =? 4))
  || ((y =? 2009) && (d =? 6) && (m =? 4))
  || ((y =? 2010) && (d =? 5) && (m =? 4))
  || ((y =? 2011) && ((3 <=? d) && (d <=? 5)) && (m =? 4))
  || ((y =? 2012) && ((2 <=? d) && (d <=? 4)) && (m =? 4))
  || ((y =? 2013) && ((4 <=? d) && (d <=? 5)) && (m =? 4))
  || ((y =? 2014) && (d =? 7) && (m =? 4))
  || ((y =? 2015) && ((5 <=? d) && (d <=? 6)) && (m =? 4))
  || ((y =? 2016) && (d =? 4) && (m =? 4))
  || ((y =? 2017) && ((3 <=? d) && (d <=? 4)) && (m =? 4))
  || ((y =? 2018) && ((5 <=? d) && (d <=? 6)) && (m =? 4))
  || ((y =? 2019) && (d =? 5) && (m =? 4))
  || ((y =? 2020) && (d =? 6) && (m =? 4))
  || ((y =? 2021) && (d =? 5) && (m =? 4))
  || ((y =? 2022) && ((4 <=? d) && (d <=? 5)) && (m =? 4))
  || ((y =? 2023) && (d =? 5) && (m =? 4))
  || ((y <=? 2007) && ((1 <=? d) && (d <=? 7)) && (m =? 5))
  || ((y =? 2008) && ((1 <=? d) && (d <=? 2)) && (m =? 5))
  || ((y =? 2009) && (d =? 1) && (m =? 5))
  || ((y =? 2010) && (d =? 3) && (m =? 5))
  || ((y =? 2011) && (d =? 2) && (m =? 5))
  || ((y =? 2012) && (((d =? 30) && (m =? 4)) || ((d =? 1) && (m =? 5))))
  || ((y =? 2013) && (((29 <=? d) && (m =? 4)) || ((d =? 1) && (m =? 5))))
  || ((y =? 2014) && ((1 <=? d) && (d <=? 3)) && (m =? 5))
  || ((y =? 2015) && (d =? 1) && (m =? 5))
  || ((y =? 2016) && ((1 <=? d) && (d <=? 2)) && (m =? 5))
  || ((y =? 2017) && (d =? 1) && (m =? 5))
  || ((y =? 2018) && (((d =? 30) && (m =? 4)) || ((d =? 1) && (m =? 5))))
  || ((y =? 2019) && ((1 <=? d) && (d <=? 3)) && (m =? 5))
  || ((y =? 2020) && ((d =? 1) || (d =? 4) || (d =? 5)) && (m =? 5))
  || ((y =? 2021) && ((d =? 3) || (d =? 4) || (d =? 5)) && (m =? 5))
  || ((y =? 2022) && ((2 <=? d) && (d <=? 4)) && (m =? 5))
  || ((y =? 2023) && ((1 <=? d) && (d <=? 3)) && (m =? 5))
  || ((y <=? 2008) && (d =? 9) && (m =? 6))
  || ((y =? 2009) && ((d =? 28) || (d =? 29)) && (m =? 5))
  || ((y =? 2010) && ((14 <=? d) && (d <=? 16)) && (m =? 6))
  || ((y =? 2011) && ((4 <=? d) && (d <=? 6)) && (m =? 6))
  || ((y =? 2012) && ((22 <=? d) && (d <=? 24)) && (m =? 6))
  || ((y =? 2013) && ((10 <=? d) && (d <=? 12)) && (m =? 6))
  || ((y =? 2014) && (d =? 2) && (m =? 6))
  || ((y =? 2015) && (d =? 22) && (m =? 6))
  || ((y =? 2016) && ((9 <=? d) && (d <=? 10)) && (m =? 6))
  || ((y =? 2017) && ((29 <=? d) && (d <=? 30)) && (m =? 5))
  || ((y =? 2018) && (d =? 18) && (m =? 6))
  || ((y =? 2019) && (d =? 7) && (m =? 6))
  || ((y =? 2020) && ((25 <=? d) && (d <=? 26)) && (m =? 6))
  || ((y =? 2021) && (d =? 14) && (m =? 6))
  || ((y =? 2022) && (d =? 3) && (m =? 6))
  || ((y =? 2023) && ((22 <=? d) && (d <=? 23)) && (m =? 6))
  || ((y <=? 2008) && (d =? 15) && (m =? 9))
  || ((y =? 2010) && ((22 <=? d) && (d <=? 24)) && (m =? 9))
  || ((y =? 2011) && ((10 <=? d) && (d <=? 12)) && (m =? 9))
  || ((y =? 2012) && (d =? 30) && (m =? 9))
  || ((y =? 2013) && ((19 <=? d) && (d <=? 20)) && (m =? 9))
  || ((y =? 2014) && (d =? 8) && (m =? 9))
  || ((y =? 2015) && (d =? 27) && (m =? 9))
  || ((y =? 2016) && ((15 <=? d) && (d <=? 16)) && (m =? 9))
  || ((y =? 2018) && (d =? 24) && (m =? 9))
  || ((y =? 2019) && (d =? 13) && (m =? 9))
  || ((y =? 2021) && ((d =? 20) || (d =? 21)) && (m =? 9))
  || ((y =? 2022) && (d =? 12) && (m =? 9))
  || ((y =? 2023) && (d =? 29) && (m =? 9))
  || ((y <=? 2007) && ((1 <=? d) && (d <=? 7)) && (m =? 10))
  || ((y =? 2008) && (((29 <=? d) && (m =? 9)) || ((d <=? 3) && (m =? 10))))
  || ((y =? 2009) && ((1 <=? d) && (d <=? 8)) && (m =? 10))
  || ((y =? 2010) && ((1 <=? d) && (d <=? 7)) && (m =? 10))
  || ((y =? 2011) && ((1 <=? d) && (d <=? 7)) && (m =? 10))
  || ((y =? 2012) && ((1 <=? d) && (d <=? 7)) && (m =? 10))
  || ((y =? 2013) && ((1 <=? d) && (d <=? 7)) && (m =? 10))
  || ((y =? 2014) && ((1 <=? d) && (d <=? 7)) && (m =? 10))
  || ((y =? 2015) && ((1 <=? d) && (d <=? 7)) && (m =? 10))
  || ((y =? 2016) && ((3 <=? d) && (d <=? 7)) && (m =? 10))
  || ((y =? 2017) && ((2 <=? d) && (d <=? 6)) && (m =? 10))
  || ((y =? 2018) && ((1 <=? d) && (d <=? 5)) && (m =? 10))
  || ((y =? 2019) && ((1 <=? d) && (d <=? 7)) && (m =? 10))
  || ((y =? 2020) && ((1 <=? d) && (d <=? 2)) && (m =? 10))
  || ((y =? 2020) && ((5 <=? d) && (d <=? 8)) && (m =? 10))
  || ((y =? 2021) && ((d =? 1) || (d =? 4) || (d =? 5) || (d =? 6) || (d =? 7)) && (m =? 10))
  || ((y =? 2022) && ((3 <=? d) && (d <=? 7)) && (m =? 10))
  || ((y =? 2023) && ((2 <=? d) && (d <=? 6)) && (m =? 10))
  || ((y =? 2015) && ((3 <=? d) && (d <=? 4)) && (m =? 9)).
(** ** countries/czech_republic.rs *)
(** 17-68 *)
Definition czech_republic_rule (y m d wd yd em : Z) : bool :=
  ((d =? 1) && (m =? 1))
  || ((yd =? (em - 3)) && (2016 <=? y))
  || (yd =? em)
  || ((d =? 1) && (m =? 5))
  || ((d =? 8) && (m =? 5))
  || ((d =? 5) && (m =? 7))
  || ((d =? 6) && (m =? 7))
  || ((d =? 28) && (m =? 9))
  || ((d =? 28) && (m =? 10))
  || ((d =? 17) && (m =? 11))
  || ((d =? 24) && (m =? 12))
  || ((d =? 25) && (m =? 12))
  || ((d =? 26) && (m =? 12))
  || ((d =? 2) && (m =? 1) && (y =? 2004))
  || ((d =? 31) && (m =? 12) && (y =? 2004)).
(** ** countries/denmark.rs *)
(** 17-64 *)
Definition denmark_rule (y m d wd yd em : Z) : bool :=
  (yd =? (em - 4))
  || (yd =? (em - 3))
  || (yd =? em)
  || ((yd =? (em + 25)) && (y <=? 2023))
  || (yd =? (em + 38))
  || ((yd =? (em + 39)) && (2009 <=? y))
  || (yd =? (em + 49))
  || ((d =? 1) && (m =? 1))
  || ((d =? 5) && (m =? 6))
  || ((d =? 24) && (m =? 12))
  || ((d =? 25) && (m =? 12))
  || ((d =? 26) && (m =? 12))
  || ((d =? 31) && (m =? 12)).
(** ** countries/finland.rs *)
(** 17-48 *)
Definition finland_rule (y m d wd yd em : Z) : bool :=
  ((d =? 1) && (m =? 1))
  || ((d =? 6) && (m =? 1))
  || (yd =? (em - 3))
  || (yd =? em)
  || (yd =? (em + 38))
  || ((d =? 1) && (m =? 5))
  || ((wd =? Fri) && ((18 <=? d) && (d <=? 24)) && (m =? 6))
  || ((d =? 6) && (m =? 12))
  || ((d =? 24) && (m =? 12))
  || ((d =? 25) && (m =? 12))
  || ((d =? 26) && (m =? 12)).
(** ** countries/france.rs *)
(** 17-48 *)
Definition france_rule (y m d wd yd em : Z) : bool :=
  ((d =? 1) && (m =? 1))
  || (yd =? em)
  || ((d =? 1) && (m =? 5))
  || ((d =? 8) && (m =? 5))
  || ((d =? 10) && (m =? 5))
  || ((d =? 21) && (m =? 5))
  || ((d =? 14) && (m =? 7))
  || ((d =? 15) && (m =? 8))
  || ((d =? 1) && (m =? 11))
  || ((d =? 11) && (m =? 11))
  || ((d =? 25) && (m =? 12)).
(** ** countries/germany.rs *)
(** 13-54 *)
Definition germany_rule (y m d wd yd em : Z) : bool :=
  ((d =? 1) && (m =? 1))
  || (yd =? (em - 3))
  || (yd =? em)
  || (yd =? (em + 38))
  || (yd =? (em + 49))
  || (yd =? (em + 59))
  || ((d =? 1) && (m =? 5))
  || ((d =? 3) && (m =? 10))
  || ((d =? 24) && (m =? 12))
  || ((d =? 25) && (m =? 12))
  || ((d =? 26) && (m =? 12)).
(** ** countries/hong_kong.rs *)
(** 55-78 *)
Definition hong_kong_lunar_new_year (y m d wd yd em : Z) : bool :=
  (((y =? 2004) && ((22 <=? d) && (d <=? 24)) && (m =? 1))
   || ((y =? 2005) && ((9 <=? d) && (d <=? 11)) && (m =? 2))
   || ((y =? 2006) && ((28 <=? d) && (d <=? 30)) && (m =? 1))
   || ((y =? 2007) && ((17 <=? d) && (d <=? 19)) && (m =? 2))
   || ((y =? 2008) && ((7 <=? d) && (d <=? 9)) && (m =? 2))
   || ((y =? 2009) && ((26 <=? d) && (d <=? 28)) && (m =? 1))
   || ((y =? 2010) && ((13 <=? d) && (d <=? 15)) && (m =? 2))
   || ((y =? 2011) && ((2 <=? d) && (d <=? 4)) && (m =? 2))
   || ((y =? 2012) && ((23 <=? d) && (d <=? 25)) && (m =? 1))
   || ((y =? 2013) && ((10 <=? d) && (d <=? 12)) && (m =? 2))
   || ((y =? 2014) && ((d =? 31) || (d =? 1) || (d =? 2)) && (m =? 1))
   || ((y =? 2015) && ((19 <=? d) && (d <=? 21)) && (m =? 2))
   || ((y =? 2016) && ((8 <=? d) && (d <=? 10)) && (m =? 2))
   || ((y =? 2017) && ((28 <=? d) && (d <=? 30)) && (m =? 1))
   || ((y =? 2018) && ((16 <=? d) && (d <=? 18)) && (m =? 2))
   || ((y =? 2019) && ((5 <=? d) && (d <=? 7)) && (m =? 2))
   || ((y =? 2020) && ((d =? 25) || (d =? 27) || (d =? 28)) && (m =? 1))).
(** 80-102 *)
Definition hong_kong_buddhas_birthday (y m d wd yd em : Z) : bool :=
  (((y =? 2004) && (d =? 26) && (m =? 5))
   || ((y =? 2005) && (d =? 16) && (m =? 5))
   || ((y =? 2006) && (d =? 5) && (m =? 5))
   || ((y =? 2007) && (d =? 24) && (m =? 5))
   || ((y =? 2008) && (d =? 12) && (m =? 5))
   || ((y =? 2009) && (d =? 2) && (m =? 5))
   || ((y =? 2010) && (d =? 21) && (m =? 5))
   || ((y =? 2011) && (d =? 10) && (m =? 5))
   || ((y =? 2012) && (d =? 28) && (m =? 5))
   || ((y =? 2013) && (d =? 17) && (m =? 5))
   || ((y =? 2014) && (d =? 6) && (m =? 5))
   || ((y =? 2015) && (d =? 25) && (m =? 5))
   || ((y =? 2016) && (d =? 14) && (m =? 5))
   || ((y =? 2017) && (d =? 3) && (m =? 5))
   || ((y =? 2018) && (d =? 22) && (m =? 5))
   || ((y =? 2019) && (d =? 12) && (m =? 5))
   || ((y =? 2020) && (d =? 30) && (m =? 5))).
(** 104-126 *)
Definition hong_kong_ching_ming_festival (y m d wd yd em : Z) : bool :=
  (((y =? 2004) && (d =? 5) && (m =? 4))
   || ((y =? 2005) && (d =? 5) && (m =? 4))
   || ((y =? 2006) && (d =? 5) && (m =? 4))
   || ((y =? 2007) && (d =? 5) && (m =? 4))
   || ((y =? 2008) && (d =? 4) && (m =? 4))
   || ((y =? 2009) && (d =? 4) && (m =? 4))
   || ((y =? 2010) && (d =? 5) && (m =? 4))
   || ((y =? 2011) && (d =? 5) && (m =? 4))
   || ((y =? 2012) && (d =? 4) && (m =? 4))
   || ((y =? 2013) && (d =? 4) && (m =? 4))
   || ((y =? 2014) && (d =? 5) && (m =? 4))
   || ((y =? 2015) && (d =? 5) && (m =? 4))
   || ((y =? 2016) && (d =? 4) && (m =? 4))
   || ((y =? 2017) && (d =? 4) && (m =? 4))
   || ((y =? 2018) && (d =? 5) && (m =? 4))
   || ((y =? 2019) && (d =? 5) && (m =? 4))
   || ((y =? 2020) && (d =? 4) && (m =? 4))).
(** 128-151 *)
Definition hong_kong_tuen_ng_festival (y m d wd yd em : Z) : bool :=
  (((y =? 2004) && (d =? 22) && (m =? 6))
   || ((y =? 2005) && (d =? 11) && (m =? 6))
   || ((y =? 2006) && (d =? 1) && (m =? 6))
   || ((y =? 2007) && (d =? 19) && (m =? 6))
   || ((y =? 2008) && (d =? 9) && (m =? 6))
   || ((y =? 2009) && (d =? 28) && (m =? 6))
   || ((y =? 2010) && (d =? 16) && (m =? 6))
   || ((y =? 2011) && (d =? 6) && (m =? 6))
   || ((y =? 2012) && (d =? 23) && (m =? 6))
   || ((y =? 2013) && (d =? 12) && (m =? 6))
   || ((y =? 2014) && (d =? 2) && (m =? 6))
   || ((y =? 2015) && (d =? 20) && (m =? 6))
   || ((y =? 2016) && (d =? 9) && (m =? 6))
   || ((y =? 2017) && (d =? 30) && (m =? 5))
   || ((y =? 2018) && (d =? 18) && (m =? 6))
   || ((y =? 2019) && (d =? 7) && (m =? 6))
   || ((y =? 2020) && (d =? 25) && (m =? 6))).
(** 153-175 *)
Definition hong_kong_mid_autumn_festival (y m d wd yd em : Z) : bool :=
  (((y =? 2004) && (d =? 28) && (m =? 9))
   || ((y =? 2005) && (d =? 18) && (m =? 9))
   || ((y =? 2006) && (d =? 7) && (m =? 10))
   || ((y =? 2007) && (d =? 26) && (m =? 9))
   || ((y =? 2008) && (d =? 15) && (m =? 9))
   || ((y =? 2009) && (d =? 3) && (m =? 10))
   || ((y =? 2010) && (d =? 22) && (m =? 9))
   || ((y =? 2011) && (d =? 12) && (m =? 9))
   || ((y =? 2012) && (d =? 30) && (m =? 9))
   || ((y =? 2013) && (d =? 19) && (m =? 9))
   || ((y =? 2014) && (d =? 9) && (m =? 9))
   || ((y =? 2015) && (d =? 27) && (m =? 9))
   || ((y =? 2016) && (d =? 15) && (m =? 9))
   || ((y =? 2017) && (d =? 5) && (m =? 10))
   || ((y =? 2018) && (d =? 25) && (m =? 9))
   || ((y =? 2019) && (d =? 14) && (m =? 9))
   || ((y =? 2020) && (d =? 1) && (m =? 10))).
(** 177-199 *)
Definition hong_kong_chung_yeung_festival (y m d wd yd em : Z) : bool :=
  (((y =? 2004) && (d =? 28) && (m =? 10))
   || ((y =? 2005) && (d =? 18) && (m =? 10))
   || ((y =? 2006) && (d =? 7) && (m =? 10))
   || ((y =? 2007) && (d =? 26) && (m =? 10))
   || ((y =? 2008) && (d =? 16) && (m =? 10))
   || ((y =? 2009) && (d =? 26) && (m =? 10))
   || ((y =? 2010) && (d =? 16) && (m =? 10))
   || ((y =? 2011) && (d =? 5) && (m =? 10))
   || ((y =? 2012) && (d =? 23) && (m =? 10))
   || ((y =? 2013) && (d =? 14) && (m =? 10))
   || ((y =? 2014) && (d =? 2) && (m =? 10))
   || ((y =? 2015) && (d =? 21) && (m =? 10))
   || ((y =? 2016) && (d =? 10) && (m =? 10))
   || ((y =? 2017) && (d =? 28) && (m =? 10))
   || ((y =? 2018) && (d =? 17) && (m =? 10))
   || ((y =? 2019) && (d =? 7) && (m =? 10))
   || ((y =? 2020) && (d =? 26) && (m =? 10))).
(** 201-223 *)
Definition hong_kong_second_day_after_christmas (y m d wd yd em : Z) : bool :=
  (((y =? 2004) && (d =? 27) && (m =? 12))
   || ((y =? 2005) && (d =? 27) && (m =? 12))
   || ((y =? 2006) && (d =? 27) && (m =? 12))
   || ((y =? 2007) && (d =? 27) && (m =? 12))
   || ((y =? 2008) && (d =? 29) && (m =? 12))
   || ((y =? 2009) && (d =? 28) && (m =? 12))
   || ((y =? 2010) && (d =? 27) && (m =? 12))
   || ((y =? 2011) && (d =? 27) && (m =? 12))
   || ((y =? 2012) && (d =? 27) && (m =? 12))
   || ((y =? 2013) && (d =? 27) && (m =? 12))
   || ((y =? 2014) && (d =? 29) && (m =? 12))
   || ((y =? 2015) && (d =? 28) && (m =? 12))
   || ((y =? 2016) && (d =? 27) && (m =? 12))
   || ((y =? 2017) && (d =? 27) && (m =? 12))
   || ((y =? 2018) && (d =? 27) && (m =? 12))
   || ((y =? 2019) && (d =? 27) && (m =? 12))
   || ((y =? 2020) && (d =? 28) && (m =? 12))).
(** 13-52 *)
Definition hong_kong_rule (y m d wd yd em : Z) : bool :=
  (((d =? 1) || ((d =? 2) && (wd =? Mon))) && (m =? 1))
  || (yd =? (em - 3))
  || (yd =? em)
  || (((d =? 1) || ((d =? 2) && (wd =? Mon))) && (m =? 5))
  || (((d =? 1) || ((d =? 2) && (wd =? Mon))) && (m =? 7))
  || (((d =? 1) || ((d =? 2) && (wd =? Mon))) && (m =? 10))
  || ((d =? 25) && (m =? 12))
  || ((d =? 26) && (m =? 12))
  || (hong_kong_lunar_new_year y m d wd yd em)
  || (hong_kong_buddhas_birthday y m d wd yd em)
  || (hong_kong_ching_ming_festival y m d wd yd em)
  || (hong_kong_tuen_ng_festival y m d wd yd em)
  || (hong_kong_mid_autumn_festival y m d wd yd em)
  || (hong_kong_chung_yeung_festival y m d wd yd em)
  || (hong_kong_second_day_after_christmas y m d wd yd em).
(** ** countries/hungary.rs *)
(** 13-44 *)
Definition hungary_rule (y m d wd yd em : Z) : bool :=
  ((d =? 1) && (m =? 1))
  || ((d =? 15) && (m =? 3))
  || (yd =? (em - 3))
  || (yd =? em)
  || ((d =? 1) && (m =? 5))
  || (yd =? (em + 49))
  || ((d =? 20) && (m =? 8))
  || ((d =? 23) && (m =? 10))
  || ((d =? 1) && (m =? 11))
  || ((d =? 25) && (m =? 12))
  || ((d =? 26) && (m =? 12)).
(** ** countries/iceland.rs *)
(** 13-50 *)
Definition iceland_rule (y m d wd yd em : Z) : bool :=
  ((d =? 1) && (m =? 1))
  || (yd =? (em - 4))
  || (yd =? (em - 3))
  || (yd =? em)
  || ((wd =? Thu) && ((19 <=? d) && (d <=? 25)) && (m =? 4))
  || ((d =? 1) && (m =? 5))
  || (yd =? (em + 38))
  || (yd =? (em + 49))
  || ((d =? 17) && (m =? 6))
  || ((d <=? 7) && (wd =? Mon) && (m =? 8))
  || ((d =? 24) && (m =? 12))
  || ((d =? 25) && (m =? 12))
  || ((d =? 26) && (m =? 12))
  || ((d =? 31) && (m =? 12)).
(** ** countries/india.rs *)
(** 56-92 *)
Definition india_mahashivratri (y m d wd yd em : Z) : bool :=
  (((y =? 2000) && (d =? 4) && (m =? 3))
   || ((y =? 2001) && (d =? 21) && (m =? 2))
   || ((y =? 2002) && (d =? 12) && (m =? 3))
   || ((y =? 2003) && (d =? 1) && (m =? 3))
   || ((y =? 2004) && (d =? 18) && (m =? 2))
   || ((y =? 2005) && (d =? 8) && (m =? 3))
   || ((y =? 2006) && (d =? 26) && (m =? 2))
   || ((y =? 2007) && (d =? 16) && (m =? 2))
   || ((y =? 2008) && (d =? 6) && (m =? 3))
   || ((y =? 2009) && (d =? 23) && (m =? 2))
   || ((y =? 2010) && (d =? 12) && (m =? 2))
   || ((y =? 2011) && (d =? 2) && (m =? 3))
   || ((y =? 2012) && (d =? 20) && (m =? 2))
   || ((y =? 2013) && (d =? 10) && (m =? 3))
   || ((y =? 2014) && (d =? 27) && (m =? 2))
   || ((y =? 2015) && (d =? 17) && (m =? 2))
   || ((y =? 2016) && (d =? 7) && (m =? 3))
   || ((y =? 2017) && (d =? 24) && (m =? 2))
   || ((y =? 2018) && (d =? 13) && (m =? 2))
   || ((y =? 2019) && (d =? 4) && (m =? 3))
   || ((y =? 2020) && (d =? 21) && (m =? 2))
   || ((y =? 2021) && (d =? 11) && (m =? 3))
   || ((y =? 2022) && (d =? 1) && (m =? 3))
   || ((y =? 2023) && (d =? 18) && (m =? 2))
   || ((y =? 2024) && (d =? 8) && (m =? 3))
   || ((y =? 2025) && (d =? 26) && (m =? 2))
   || ((y =? 2026) && (d =? 15) && (m =? 2))
   || ((y =? 2027) && (d =? 6) && (m =? 3))
   || ((y =? 2028) && (d =? 23) && (m =? 2))
   || ((y =? 2029) && (d =? 11) && (m =? 2))).
(** 94-129 *)
Definition india_holi (y m d wd yd em : Z) : bool :=
  (((y =? 2000) && (d =? 20) && (m =? 3))
   || ((y =? 2001) && (d =? 10) && (m =? 3))
   || ((y =? 2002) && (d =? 29) && (m =? 3))
   || ((y =? 2003) && (d =? 18) && (m =? 3))
   || ((y =? 2004) && (d =? 7) && (m =? 3))
   || ((y =? 2005) && (d =? 26) && (m =? 3))
   || ((y =? 2006) && (d =? 15) && (m =? 3))
   || ((y =? 2007) && (d =? 4) && (m =? 3))
   || ((y =? 2008) && (d =? 22) && (m =? 3))
   || ((y =? 2009) && (d =? 11) && (m =? 3))
   || ((y =? 2010) && (d =? 1) && (m =? 3))
   || ((y =? 2011) && (d =? 20) && (m =? 3))
   || ((y =? 2012) && (d =? 8) && (m =? 3))
   || ((y =? 2013) && (d =? 27) && (m =? 3))
   || ((y =? 2014) && (d =? 17) && (m =? 3))
   || ((y =? 2015) && (d =? 6) && (m =? 3))
   || ((y =? 2016) && (d =? 24) && (m =? 3))
   || ((y =? 2017) && (d =? 13) && (m =? 3))
   || ((y =? 2018) && (d =? 2) && (m =? 3))
   || ((y =? 2019) && (d =? 21) && (m =? 3))
   || ((y =? 2020) && (d =? 10) && (m =? 3))
   || ((y =? 2021) && (d =? 29) && (m =? 3))
   || ((y =? 2022) && (d =? 18) && (m =? 3))
   || ((y =? 2023) && (d =? 8) && (m =? 3))
   || ((y =? 2024) && (d =? 25) && (m =? 3))
   || ((y =? 2025) && (d =? 14) && (m =? 3))
   || ((y =? 2026) && (d =? 4) && (m =? 3))
   || ((y =? 2027) && (d =? 22) && (m =? 3))
   || ((y =? 2028) && (d =? 11) && (m =? 3))
   || ((y =? 2029) && (d =? 1) && (m =? 3))).
(** 131-166 *)
Definition india_eid_ul_fitar (y m d wd yd em : Z) : bool :=
  (((y =? 2000) && (d =? 8) && (m =? 1))
   || ((y =? 2000) && (d =? 28) && (m =? 12))
   || ((y =? 2001) && (d =? 17) && (m =? 12))
   || ((y =? 2002) && (d =? 6) && (m =? 12))
   || ((y =? 2003) && (d =? 26) && (m =? 11))
   || ((y =? 2004) && (d =? 14) && (m =? 11))
   || ((y =? 2005) && (d =? 4) && (m =? 11))
   || ((y =? 2006) && (d =? 24) && (m =? 10))
   || ((y =? 2007) && (d =? 13) && (m =? 10))
   || ((y =? 2008) && (d =? 2) && (m =? 10))
   || ((y =? 2009) && (d =? 21) && (m =? 9))
   || ((y =? 2010) && (d =? 10) && (m =? 9))
   || ((y =? 2011) && (d =? 31) && (m =? 8))
   || ((y =? 2012) && (d =? 20) && (m =? 8))
   || ((y =? 2013) && (d =? 9) && (m =? 8))
   || ((y =? 2014) && (d =? 29) && (m =? 7))
   || ((y =? 2015) && (d =? 19) && (m =? 7))
   || ((y =? 2016) && (d =? 6) && (m =? 7))
   || ((y =? 2017) && (d =? 26) && (m =? 6))
   || ((y =? 2018) && (d =? 15) && (m =? 6))
   || ((y =? 2019) && (d =? 5) && (m =? 6))
   || ((y =? 2020) && (d =? 25) && (m =? 5))
   || ((y =? 2021) && (d =? 14) && (m =? 5))
   || ((y =? 2022) && (d =? 3) && (m =? 5))
   || ((y =? 2023) && (d =? 22) && (m =? 4))
   || ((y =? 2024) && (d =? 11) && (m =? 4))
   || ((y =? 2025) && (d =? 31) && (m =? 3))
   || ((y =? 2026) && (d =? 21) && (m =? 3))
   || ((y =? 2027) && (d =? 10) && (m =? 3))
   || ((y =? 2028) && (d =? 27) && (m =? 2))
   || ((y =? 2029) && (d =? 15) && (m =? 2))).
(** 168-203 *)
Definition india_rama_navami (y m d wd yd em : Z) : bool :=
  (((y =? 2000) && (d =? 12) && (m =? 4))
   || ((y =? 2001) && (d =? 2) && (m =? 4))
   || ((y =? 2002) && (d =? 21) && (m =? 4))
   || ((y =? 2003) && (d =? 11) && (m =? 4))
   || ((y =? 2004) && (d =? 30) && (m =? 3))
   || ((y =? 2005) && (d =? 18) && (m =? 4))
   || ((y =? 2006) && (d =? 6) && (m =? 4))
   || ((y =? 2007) && (d =? 26) && (m =? 3))
   || ((y =? 2008) && (d =? 13) && (m =? 4))
   || ((y =? 2009) && (d =? 3) && (m =? 4))
   || ((y =? 2010) && (d =? 24) && (m =? 3))
   || ((y =? 2011) && (d =? 12) && (m =? 4))
   || ((y =? 2012) && (d =? 1) && (m =? 4))
   || ((y =? 2013) && (d =? 19) && (m =? 4))
   || ((y =? 2014) && (d =? 8) && (m =? 4))
   || ((y =? 2015) && (d =? 28) && (m =? 3))
   || ((y =? 2016) && (d =? 15) && (m =? 4))
   || ((y =? 2017) && (d =? 4) && (m =? 4))
   || ((y =? 2018) && (d =? 25) && (m =? 3))
   || ((y =? 2019) && (d =? 13) && (m =? 4))
   || ((y =? 2020) && (d =? 2) && (m =? 4))
   || ((y =? 2021) && (d =? 21) && (m =? 4))
   || ((y =? 2022) && (d =? 10) && (m =? 4))
   || ((y =? 2023) && (d =? 30) && (m =? 3))
   || ((y =? 2024) && (d =? 17) && (m =? 4))
   || ((y =? 2025) && (d =? 6) && (m =? 4))
   || ((y =? 2026) && (d =? 26) && (m =? 3))
   || ((y =? 2027) && (d =? 15) && (m =? 4))
   || ((y =? 2028) && (d =? 3) && (m =? 4))
   || ((y =? 2029) && (d =? 22) && (m =? 4))).
(** 205-231 *)
Definition india_mahavir_jayanti (y m d wd yd em : Z) : bool :=
  (((y =? 2005) && (d =? 22) && (m =? 4))
   || ((y =? 2006) && (d =? 11) && (m =? 4))
   || ((y =? 2007) && (d =? 31) && (m =? 3))
   || ((y =? 2008) && (d =? 18) && (m =? 4))
   || ((y =? 2009) && (d =? 7) && (m =? 4))
   || ((y =? 2010) && (d =? 28) && (m =? 4))
   || ((y =? 2011) && (d =? 16) && (m =? 4))
   || ((y =? 2012) && (d =? 5) && (m =? 4))
   || ((y =? 2013) && (d =? 24) && (m =? 4))
   || ((y =? 2014) && (d =? 13) && (m =? 4))
   || ((y =? 2015) && (d =? 2) && (m =? 4))
   || ((y =? 2016) && (d =? 20) && (m =? 4))
   || ((y =? 2017) && (d =? 9) && (m =? 4))
   || ((y =? 2018) && (d =? 29) && (m =? 3))
   || ((y =? 2019) && (d =? 17) && (m =? 4))
   || ((y =? 2020) && (d =? 6) && (m =? 4))
   || ((y =? 2021) && (d =? 25) && (m =? 4))
   || ((y =? 2022) && (d =? 14) && (m =? 4))
   || ((y =? 2023) && (d =? 4) && (m =? 4))
   || ((y =? 2024) && (d =? 21) && (m =? 4))
   || ((y =? 2025) && (d =? 10) && (m =? 4))).
(** 233-267 *)
Definition india_bakri_id (y m d wd yd em : Z) : bool :=
  (((y =? 2000) && (d =? 16) && (m =? 3))
   || ((y =? 2001) && (d =? 6) && (m =? 3))
   || ((y =? 2002) && (d =? 23) && (m =? 2))
   || ((y =? 2003) && (d =? 12) && (m =? 2))
   || ((y =? 2004) && (d =? 2) && (m =? 2))
   || ((y =? 2005) && (d =? 21) && (m =? 1))
   || ((y =? 2006) && (d =? 11) && (m =? 1))
   || ((y =? 2007) && (d =? 20) && (m =? 12))
   || ((y =? 2008) && (d =? 9) && (m =? 12))
   || ((y =? 2009) && (d =? 28) && (m =? 11))
   || ((y =? 2010) && (d =? 17) && (m =? 11))
   || ((y =? 2011) && (d =? 7) && (m =? 11))
   || ((y =? 2012) && (d =? 27) && (m =? 10))
   || ((y =? 2013) && (d =? 16) && (m =? 10))
   || ((y =? 2014) && (d =? 6) && (m =? 10))
   || ((y =? 2015) && (d =? 25) && (m =? 9))
   || ((y =? 2016) && (d =? 13) && (m =? 9))
   || ((y =? 2017) && (d =? 2) && (m =? 9))
   || ((y =? 2018) && (d =? 22) && (m =? 8))
   || ((y =? 2019) && (d =? 12) && (m =? 8))
   || ((y =? 2020) && (d =? 1) && (m =? 8))
   || ((y =? 2021) && (d =? 21) && (m =? 7))
   || ((y =? 2022) && (d =? 10) && (m =? 7))
   || ((y =? 2023) && (d =? 29) && (m =? 6))
   || ((y =? 2024) && (d =? 17) && (m =? 6))
   || ((y =? 2025) && (d =? 7) && (m =? 6))
   || ((y =? 2026) && (d =? 28) && (m =? 5))
   || ((y =? 2027) && (d =? 17) && (m =? 5))
   || ((y =? 2028) && (d =? 6) && (m =? 5))
   || ((y =? 2029) && (d =? 25) && (m =? 4))).
(** 269-295 *)
Definition india_muharram (y m d wd yd em : Z) : bool :=
  (((y =? 2007) && (d =? 30) && (m =? 1))
   || ((y =? 2009) && (d =? 28) && (m =? 12))
   || ((y =? 2010) && (d =? 17) && (m =? 12))
   || ((y =? 2011) && (d =? 6) && (m =? 12))
   || ((y =? 2012) && (d =? 25) && (m =? 11))
   || ((y =? 2013) && (d =? 14) && (m =? 11))
   || ((y =? 2014) && (d =? 4) && (m =? 11))
   || ((y =? 2015) && (d =? 24) && (m =? 10))
   || ((y =? 2016) && (d =? 12) && (m =? 10))
   || ((y =? 2017) && (d =? 1) && (m =? 10))
   || ((y =? 2018) && (d =? 21) && (m =? 9))
   || ((y =? 2019) && (d =? 10) && (m =? 9))
   || ((y =? 2020) && (d =? 30) && (m =? 8))
   || ((y =? 2021) && (d =? 20) && (m =? 8))
   || ((y =? 2022) && (d =? 9) && (m =? 8))
   || ((y =? 2023) && (d =? 29) && (m =? 7))
   || ((y =? 2024) && (d =? 17) && (m =? 7))
   || ((y =? 2025) && (d =? 6) && (m =? 7))
   || ((y =? 2026) && (d =? 26) && (m =? 6))
   || ((y =? 2027) && (d =? 16) && (m =? 6))
   || ((y =? 2028) && (d =? 4) && (m =? 6))
   || ((y =? 2029) && (d =? 25) && (m =? 5))).
(** 297-332 *)
Definition india_dussehra (y m d wd yd em : Z) : bool :=
  (((y =? 2000) && (d =? 7) && (m =? 10))
   || ((y =? 2001) && (d =? 26) && (m =? 10))
   || ((y =? 2002) && (d =? 15) && (m =? 10))
   || ((y =? 2003) && (d =? 5) && (m =? 10))
   || ((y =? 2004) && (d =? 22) && (m =? 10))
   || ((y =? 2005) && (d =? 12) && (m =? 10))
   || ((y =? 2006) && (d =? 2) && (m =? 10))
   || ((y =? 2007) && (d =? 21) && (m =? 10))
   || ((y =? 2008) && (d =? 9) && (m =? 10))
   || ((y =? 2009) && (d =? 28) && (m =? 9))
   || ((y =? 2010) && (d =? 17) && (m =? 10))
   || ((y =? 2011) && (d =? 6) && (m =? 10))
   || ((y =? 2012) && (d =? 24) && (m =? 10))
   || ((y =? 2013) && (d =? 13) && (m =? 10))
   || ((y =? 2014) && (d =? 3) && (m =? 10))
   || ((y =? 2015) && (d =? 22) && (m =? 10))
   || ((y =? 2016) && (d =? 11) && (m =? 10))
   || ((y =? 2017) && (d =? 30) && (m =? 9))
   || ((y =? 2018) && (d =? 19) && (m =? 10))
   || ((y =? 2019) && (d =? 8) && (m =? 10))
   || ((y =? 2020) && (d =? 25) && (m =? 10))
   || ((y =? 2021) && (d =? 15) && (m =? 10))
   || ((y =? 2022) && (d =? 5) && (m =? 10))
   || ((y =? 2023) && (d =? 24) && (m =? 10))
   || ((y =? 2024) && (d =? 12) && (m =? 10))
   || ((y =? 2025) && (d =? 2) && (m =? 10))
   || ((y =? 2026) && (d =? 20) && (m =? 10))
   || ((y =? 2027) && (d =? 9) && (m =? 10))
   || ((y =? 2028) && (d =? 27) && (m =? 9))
   || ((y =? 2029) && (d =? 16) && (m =? 10))).
(** 334-369 *)
Definition india_diwali (y m d wd yd em : Z) : bool :=
  (((y =? 2000) && (d =? 26) && (m =? 10))
   || ((y =? 2001) && (d =? 14) && (m =? 11))
   || ((y =? 2002) && (d =? 4) && (m =? 11))
   || ((y =? 2003) && (d =? 25) && (m =? 10))
   || ((y =? 2004) && (d =? 12) && (m =? 11))
   || ((y =? 2005) && (d =? 1) && (m =? 11))
   || ((y =? 2006) && (d =? 21) && (m =? 10))
   || ((y =? 2007) && (d =? 9) && (m =? 11))
   || ((y =? 2008) && (d =? 28) && (m =? 10))
   || ((y =? 2009) && (d =? 17) && (m =? 10))
   || ((y =? 2010) && (d =? 5) && (m =? 11))
   || ((y =? 2011) && (d =? 26) && (m =? 10))
   || ((y =? 2012) && (d =? 13) && (m =? 11))
   || ((y =? 2013) && (d =? 3) && (m =? 11))
   || ((y =? 2014) && (d =? 23) && (m =? 10))
   || ((y =? 2015) && (d =? 11) && (m =? 11))
   || ((y =? 2016) && (d =? 30) && (m =? 10))
   || ((y =? 2017) && (d =? 19) && (m =? 10))
   || ((y =? 2018) && (d =? 7) && (m =? 11))
   || ((y =? 2019) && (d =? 27) && (m =? 10))
   || ((y =? 2020) && (d =? 14) && (m =? 11))
   || ((y =? 2021) && (d =? 4) && (m =? 11))
   || ((y =? 2022) && (d =? 24) && (m =? 10))
   || ((y =? 2023) && (d =? 12) && (m =? 11))
   || ((y =? 2024) && (d =? 31) && (m =? 10))
   || ((y =? 2025) && (d =? 20) && (m =? 10))
   || ((y =? 2026) && (d =? 8) && (m =? 11))
   || ((y =? 2027) && (d =? 29) && (m =? 10))
   || ((y =? 2028) && (d =? 17) && (m =? 10))
   || ((y =? 2029) && (d =? 5) && (m =? 11))).
(** 371-397 *)
Definition india_gurunanak_jayanti (y m d wd yd em : Z) : bool :=
  (((y =? 2005) && (d =? 15) && (m =? 11))
   || ((y =? 2006) && (d =? 5) && (m =? 11))
   || ((y =? 2007) && (d =? 24) && (m =? 11))
   || ((y =? 2008) && (d =? 13) && (m =? 11))
   || ((y =? 2009) && (d =? 2) && (m =? 11))
   || ((y =? 2010) && (d =? 21) && (m =? 11))
   || ((y =? 2011) && (d =? 10) && (m =? 11))
   || ((y =? 2012) && (d =? 28) && (m =? 11))
   || ((y =? 2013) && (d =? 17) && (m =? 11))
   || ((y =? 2014) && (d =? 6) && (m =? 11))
   || ((y =? 2015) && (d =? 25) && (m =? 11))
   || ((y =? 2016) && (d =? 14) && (m =? 11))
   || ((y =? 2017) && (d =? 4) && (m =? 11))
   || ((y =? 2018) && (d =? 23) && (m =? 11))
   || ((y =? 2019) && (d =? 12) && (m =? 11))
   || ((y =? 2020) && (d =? 30) && (m =? 11))
   || ((y =? 2021) && (d =? 19) && (m =? 11))
   || ((y =? 2022) && (d =? 8) && (m =? 11))
   || ((y =? 2023) && (d =? 27) && (m =? 11))
   || ((y =? 2024) && (d =? 15) && (m =? 11))
   || ((y =? 2025) && (d =? 5) && (m =? 11))).
(** 13-54 *)
Definition india_rule (y m d wd yd em : Z) : bool :=
  ((d =? 26) && (m =? 1))
  || (india_mahashivratri y m d wd yd em)
  || (india_holi y m d wd yd em)
  || (yd =? (em - 3))
  || (india_eid_ul_fitar y m d wd yd em)
  || (india_rama_navami y m d wd yd em)
  || (india_mahavir_jayanti y m d wd yd em)
  || ((d =? 1) && (m =? 5))
  || (india_bakri_id y m d wd yd em)
  || (india_muharram y m d wd yd em)
  || ((d =? 15) && (m =? 8))
  || ((d =? 2) && (m =? 10))
  || (india_dussehra y m d wd yd em)
  || (india_diwali y m d wd yd em)
  || (india_gurunanak_jayanti y m d wd yd em)
  || ((d =? 25) && (m =? 12)).
(** ** countries/indonesia.rs *)
(** 59-88 *)
Definition indonesia_ascension_day_of_prophet_muhammad (y m d wd yd em : Z) : bool :=
  (((y =? 2000) && (d =? 26) && (m =? 10))
   || ((y =? 2001) && (d =? 15) && (m =? 10))
   || ((y =? 2002) && (d =? 4) && (m =? 10))
   || ((y =? 2003) && (d =? 24) && (m =? 9))
   || ((y =? 2004) && (d =? 12) && (m =? 9))
   || ((y =? 2005) && (d =? 1) && (m =? 9))
   || ((y =? 2006) && (d =? 22) && (m =? 8))
   || ((y =? 2007) && (d =? 11) && (m =? 8))
   || ((y =? 2008) && (d =? 31) && (m =? 7))
   || ((y =? 2009) && (d =? 20) && (m =? 7))
   || ((y =? 2010) && (d =? 9) && (m =? 7))
   || ((y =? 2011) && (d =? 29) && (m =? 6))
   || ((y =? 2012) && (d =? 17) && (m =? 6))
   || ((y =? 2013) && (d =? 6) && (m =? 6))
   || ((y =? 2014) && (d =? 27) && (m =? 5))
   || ((y =? 2015) && (d =? 16) && (m =? 5))
   || ((y =? 2016) && (d =? 6) && (m =? 5))
   || ((y =? 2017) && (d =? 24) && (m =? 4))
   || ((y =? 2018) && (d =? 14) && (m =? 4))
   || ((y =? 2019) && (d =? 3) && (m =? 4))
   || ((y =? 2020) && (d =? 22) && (m =? 3))
   || ((y =? 2021) && (d =? 11) && (m =? 3))
   || ((y =? 2022) && (d =? 28) && (m =? 2))
   || ((y =? 2023) && (d =? 18) && (m =? 2))
   || ((y =? 2024) && (d =? 8) && (m =? 2))).
(** 90-121 *)
Definition indonesia_lunar_new_year (y m d wd yd em : Z) : bool :=
  (((y =? 2000) && (d =? 5) && (m =? 2))
   || ((y =? 2001) && (d =? 24) && (m =? 1))
   || ((y =? 2002) && (d =? 12) && (m =? 2))
   || ((y =? 2003) && (d =? 1) && (m =? 2))
   || ((y =? 2004) && (d =? 22) && (m =? 1))
   || ((y =? 2005) && (d =? 9) && (m =? 2))
   || ((y =? 2006) && (d =? 30) && (m =? 1))
   || ((y =? 2007) && (d =? 19) && (m =? 2))
   || ((y =? 2008) && (d =? 7) && (m =? 2))
   || ((y =? 2009) && (d =? 26) && (m =? 1))
   || ((y =? 2010) && (d =? 15) && (m =? 2))
   || ((y =? 2011) && (d =? 3) && (m =? 2))
   || ((y =? 2012) && (d =? 23) && (m =? 1))
   || ((y =? 2013) && (d =? 11) && (m =? 2))
   || ((y =? 2014) && (d =? 31) && (m =? 1))
   || ((y =? 2015) && (d =? 19) && (m =? 2))
   || ((y =? 2016) && (d =? 8) && (m =? 2))
   || ((y =? 2017) && (d =? 28) && (m =? 1))
   || ((y =? 2018) && (d =? 16) && (m =? 2))
   || ((y =? 2019) && (d =? 5) && (m =? 2))
   || ((y =? 2020) && (d =? 25) && (m =? 1))
   || ((y =? 2021) && (d =? 12) && (m =? 2))
   || ((y =? 2022) && (d =? 1) && (m =? 2))
   || ((y =? 2023) && (d =? 23) && (m =? 1))
   || ((y =? 2024) && (d =? 9) && (m =? 2))
   || ((y =? 2025) && (d =? 29) && (m =? 1))).
(** 123-149 *)
Definition indonesia_hindu_new_year (y m d wd yd em : Z) : bool :=
  (((y =? 2006) && (d =? 30) && (m =? 3))
   || ((y =? 2007) && (d =? 19) && (m =? 3))
   || ((y =? 2008) && (d =? 7) && (m =? 3))
   || ((y =? 2009) && (d =? 26) && (m =? 3))
   || ((y =? 2010) && (d =? 16) && (m =? 3))
   || ((y =? 2011) && (d =? 5) && (m =? 3))
   || ((y =? 2012) && (d =? 23) && (m =? 3))
   || ((y =? 2013) && (d =? 12) && (m =? 3))
   || ((y =? 2014) && (d =? 31) && (m =? 3))
   || ((y =? 2015) && (d =? 21) && (m =? 3))
   || ((y =? 2016) && (d =? 9) && (m =? 3))
   || ((y =? 2017) && (d =? 28) && (m =? 3))
   || ((y =? 2018) && (d =? 17) && (m =? 3))
   || ((y =? 2019) && (d =? 7) && (m =? 3))
   || ((y =? 2020) && (d =? 25) && (m =? 3))
   || ((y =? 2021) && (d =? 14) && (m =? 3))
   || ((y =? 2022) && (d =? 3) && (m =? 3))
   || ((y =? 2023) && (d =? 22) && (m =? 3))
   || ((y =? 2023) && (d =? 23) && (m =? 3))
   || ((y =? 2024) && (d =? 11) && (m =? 3))
   || ((y =? 2024) && (d =? 12) && (m =? 3))).
(** 151-204 *)
Definition indonesia_eid_ul_fitar (y m d wd yd em : Z) : bool :=
  (((y =? 2006) && (d =? 23) && (m =? 10))
   || ((y =? 2007) && (d =? 12) && (m =? 10))
   || ((y =? 2008) && (d =? 29) && (m =? 9))
   || ((y =? 2008) && (d =? 30) && (m =? 9))
   || ((y =? 2010) && (d =? 9) && (m =? 9))
   || ((y =? 2015) && (d =? 16) && (m =? 7))
   || ((y =? 2016) && (d =? 4) && (m =? 7))
   || ((y =? 2016) && (d =? 5) && (m =? 7))
   || ((y =? 2018) && (d =? 11) && (m =? 6))
   || ((y =? 2018) && (d =? 12) && (m =? 6))
   || ((y =? 2019) && (d =? 3) && (m =? 6))
   || ((y =? 2019) && (d =? 4) && (m =? 6))
   || ((y =? 2021) && (d =? 12) && (m =? 5))
   || ((y =? 2022) && (d =? 29) && (m =? 4))
   || ((y =? 2023) && (d =? 19) && (m =? 4))
   || ((y =? 2023) && (d =? 20) && (m =? 4))
   || ((y =? 2024) && (d =? 8) && (m =? 4))
   || ((y =? 2024) && (d =? 9) && (m =? 4))
   || ((y =? 2006) && (d =? 26) && (m =? 10))
   || ((y =? 2007) && (d =? 15) && (m =? 10))
   || ((y =? 2008) && (d =? 3) && (m =? 10))
   || ((y =? 2009) && (d =? 23) && (m =? 9))
   || ((y =? 2010) && (d =? 13) && (m =? 9))
   || ((y =? 2014) && (d =? 30) && (m =? 7))
   || ((y =? 2015) && (d =? 20) && (m =? 7))
   || ((y =? 2016) && (d =? 8) && (m =? 7))
   || ((y =? 2018) && (d =? 18) && (m =? 6))
   || ((y =? 2018) && (d =? 13) && (m =? 6))
   || ((y =? 2019) && (d =? 7) && (m =? 6))
   || ((y =? 2019) && (d =? 6) && (m =? 6))
   || ((y =? 2019) && (d =? 5) && (m =? 6))
   || ((y =? 2020) && (d =? 25) && (m =? 5))
   || ((y =? 2020) && (d =? 24) && (m =? 5))
   || ((y =? 2021) && (d =? 14) && (m =? 5))
   || ((y =? 2021) && (d =? 17) && (m =? 5))
   || ((y =? 2021) && (d =? 13) && (m =? 5))
   || ((y =? 2022) && (d =? 2) && (m =? 5))
   || ((y =? 2022) && (d =? 3) && (m =? 5))
   || ((y =? 2022) && (d =? 4) && (m =? 5))
   || ((y =? 2023) && (d =? 21) && (m =? 4))
   || ((y =? 2023) && (d =? 24) && (m =? 4))
   || ((y =? 2023) && (d =? 22) && (m =? 4))
   || ((y =? 2023) && (d =? 23) && (m =? 4))
   || ((y =? 2024) && (d =? 12) && (m =? 4))
   || ((y =? 2024) && (d =? 15) && (m =? 4))
   || ((y =? 2024) && (d =? 11) && (m =? 4))
   || ((y =? 2024) && (d =? 10) && (m =? 4))
   || ((y =? 2025) && (d =? 1) && (m =? 4))
   || ((y =? 2025) && (d =? 2) && (m =? 4))).
(** 206-233 *)
Definition indonesia_vesak_day (y m d wd yd em : Z) : bool :=
  (((y =? 2007) && (d =? 1) && (m =? 6))
   || ((y =? 2008) && (d =? 19) && (m =? 5))
   || ((y =? 2008) && (d =? 20) && (m =? 5))
   || ((y =? 2009) && (d =? 9) && (m =? 5))
   || ((y =? 2010) && (d =? 28) && (m =? 5))
   || ((y =? 2011) && (d =? 17) && (m =? 5))
   || ((y =? 2012) && (d =? 6) && (m =? 5))
   || ((y =? 2013) && (d =? 25) && (m =? 5))
   || ((y =? 2014) && (d =? 15) && (m =? 5))
   || ((y =? 2015) && (d =? 2) && (m =? 6))
   || ((y =? 2016) && (d =? 22) && (m =? 5))
   || ((y =? 2017) && (d =? 11) && (m =? 5))
   || ((y =? 2018) && (d =? 29) && (m =? 5))
   || ((y =? 2019) && (d =? 19) && (m =? 5))
   || ((y =? 2020) && (d =? 7) && (m =? 5))
   || ((y =? 2021) && (d =? 26) && (m =? 5))
   || ((y =? 2022) && (d =? 16) && (m =? 5))
   || ((y =? 2023) && (d =? 4) && (m =? 6))
   || ((y =? 2023) && (d =? 2) && (m =? 6))
   || ((y =? 2024) && (d =? 23) && (m =? 5))
   || ((y =? 2024) && (d =? 24) && (m =? 5))
   || ((y =? 2025) && (d =? 13) && (m =? 5))).
(** 235-248 *)
Definition indonesia_eid_ul_adha (y m d wd yd em : Z) : bool :=
  (((y =? 2019) && (d =? 11) && (m =? 8))
   || ((y =? 2020) && (d =? 31) && (m =? 7))
   || ((y =? 2021) && (d =? 20) && (m =? 7))
   || ((y =? 2022) && (d =? 10) && (m =? 7))
   || ((y =? 2023) && (d =? 29) && (m =? 6))
   || ((y =? 2024) && (d =? 17) && (m =? 6))
   || ((y =? 2024) && (d =? 18) && (m =? 6))
   || ((y =? 2025) && (d =? 7) && (m =? 6))).
(** 250-282 *)
Definition indonesia_muharram (y m d wd yd em : Z) : bool :=
  (((y =? 2000) && (d =? 6) && (m =? 4))
   || ((y =? 2001) && (d =? 26) && (m =? 3))
   || ((y =? 2002) && (d =? 15) && (m =? 3))
   || ((y =? 2003) && (d =? 5) && (m =? 3))
   || ((y =? 2004) && (d =? 22) && (m =? 2))
   || ((y =? 2005) && (d =? 10) && (m =? 2))
   || ((y =? 2006) && (d =? 31) && (m =? 1))
   || ((y =? 2007) && (d =? 20) && (m =? 1))
   || ((y =? 2008) && (d =? 10) && (m =? 1))
   || ((y =? 2008) && (d =? 29) && (m =? 12))
   || ((y =? 2009) && (d =? 18) && (m =? 12))
   || ((y =? 2010) && (d =? 7) && (m =? 12))
   || ((y =? 2011) && (d =? 27) && (m =? 11))
   || ((y =? 2012) && (d =? 15) && (m =? 11))
   || ((y =? 2013) && (d =? 5) && (m =? 11))
   || ((y =? 2014) && (d =? 25) && (m =? 10))
   || ((y =? 2015) && (d =? 14) && (m =? 10))
   || ((y =? 2016) && (d =? 2) && (m =? 10))
   || ((y =? 2017) && (d =? 21) && (m =? 9))
   || ((y =? 2018) && (d =? 11) && (m =? 9))
   || ((y =? 2019) && (d =? 1) && (m =? 9))
   || ((y =? 2020) && (d =? 20) && (m =? 8))
   || ((y =? 2021) && (d =? 10) && (m =? 8))
   || ((y =? 2021) && (d =? 11) && (m =? 8))
   || ((y =? 2022) && (d =? 30) && (m =? 7))
   || ((y =? 2023) && (d =? 19) && (m =? 7))
   || ((y =? 2024) && (d =? 7) && (m =? 7))
   || ((y =? 2025) && (d =? 27) && (m =? 6))).
(** 284-310 *)
Definition indonesia_birth_of_prophet_muhammad (y m d wd yd em : Z) : bool :=
  (((y =? 2006) && (d =? 10) && (m =? 4))
   || ((y =? 2007) && (d =? 31) && (m =? 3))
   || ((y =? 2008) && (d =? 20) && (m =? 3))
   || ((y =? 2009) && (d =? 9) && (m =? 3))
   || ((y =? 2010) && (d =? 26) && (m =? 2))
   || ((y =? 2011) && (d =? 15) && (m =? 2))
   || ((y =? 2012) && (d =? 5) && (m =? 2))
   || ((y =? 2013) && (d =? 24) && (m =? 1))
   || ((y =? 2014) && (d =? 14) && (m =? 1))
   || ((y =? 2015) && (d =? 3) && (m =? 1))
   || ((y =? 2015) && (d =? 24) && (m =? 12))
   || ((y =? 2016) && (d =? 12) && (m =? 12))
   || ((y =? 2017) && (d =? 1) && (m =? 12))
   || ((y =? 2018) && (d =? 20) && (m =? 11))
   || ((y =? 2019) && (d =? 9) && (m =? 11))
   || ((y =? 2020) && (d =? 29) && (m =? 10))
   || ((y =? 2021) && (d =? 19) && (m =? 10))
   || ((y =? 2021) && (d =? 20) && (m =? 10))
   || ((y =? 2022) && (d =? 8) && (m =? 10))
   || ((y =? 2023) && (d =? 28) && (m =? 9))
   || ((y =? 2024) && (d =? 15) && (m =? 9))
   || ((y =? 2025) && (d =? 5) && (m =? 9))).
(** 13-57 *)
Definition indonesia_rule (y m d wd yd em : Z) : bool :=
  ((d =? 1) && (m =? 1))
  || (indonesia_ascension_day_of_prophet_muhammad y m d wd yd em)
  || (indonesia_lunar_new_year y m d wd yd em)
  || (indonesia_hindu_new_year y m d wd yd em)
  || (yd =? (em - 3))
  || (indonesia_eid_ul_fitar y m d wd yd em)
  || ((d =? 1) && (m =? 5))
  || (yd =? (em + 38))
  || ((y =? 2007) && (m =? 5) && (d =? 18))
  || ((y =? 2008) && (m =? 5) && (d =? 2))
  || ((y =? 2024) && (m =? 5) && (d =? 10))
  || (indonesia_vesak_day y m d wd yd em)
  || ((d =? 1) && (m =? 6))
  || (indonesia_eid_ul_adha y m d wd yd em)
  || (indonesia_muharram y m d wd yd em)
  || ((d =? 17) && (m =? 8))
  || (indonesia_birth_of_prophet_muhammad y m d wd yd em)
  || ((d =? 25) && (m =? 12))
  || ((d =? 26) && (m =? 12)).
(** ** countries/italy.rs *)
(** 13-43 *)
Definition italy_rule (y m d wd yd em : Z) : bool :=
  ((d =? 1) && (m =? 1))
  || ((d =? 6) && (m =? 1))
  || (yd =? em)
  || ((d =? 25) && (m =? 4))
  || ((d =? 1) && (m =? 5))
  || ((d =? 2) && (m =? 6))
  || ((d =? 15) && (m =? 8))
  || ((d =? 1) && (m =? 11))
  || ((d =? 8) && (m =? 12))
  || ((d =? 25) && (m =? 12))
  || ((d =? 26) && (m =? 12)).
(** ** countries/mexico.rs *)
(** 13-38 *)
Definition mexico_rule (y m d wd yd em : Z) : bool :=
  ((d =? 1) && (m =? 1))
  || ((d <=? 7) && (m =? 2) && (wd =? Mon))
  || ((m =? 3) && ((15 <=? d) && (d <=? 21)) && (wd =? Mon))
  || ((d =? 1) && (m =? 5))
  || ((d =? 16) && (m =? 9))
  || (((15 <=? d) && (d <=? 21)) && (wd =? Mon) && (m =? 11))
  || ((d =? 1) && (m =? 10) && ((Z.rem (y - 2018) 6) =? 0))
  || ((d =? 25) && (m =? 12)).
(** ** countries/netherlands.rs *)
(** 46-58 *)
Definition netherlands_kings_day (y m d wd yd em : Z) : bool :=
  ((m =? 4) && (((d =? 27) && negb ((wd + 1) =? 7)) || ((d =? 26) && ((wd + 1) =? 6)))).
(** 13-44 *)
Definition netherlands_rule (y m d wd yd em : Z) : bool :=
  ((d =? 1) && (m =? 1))
  || (yd =? (em - 3))
  || (yd =? (em - 1))
  || (yd =? em)
  || (netherlands_kings_day y m d wd yd em)
  || ((d =? 5) && (m =? 5) && (((Z.rem y 5) =? 0) && (2020 <=? y)))
  || (yd =? (em + 38))
  || (yd =? (em + 48))
  || (yd =? (em + 49))
  || ((d =? 25) && (m =? 12))
  || ((d =? 26) && (m =? 12)).
(** ** countries/new_zealand.rs *)
(** 13-66 *)
Definition new_zealand_rule (y m d wd yd em : Z) : bool :=
  (((d =? 1) || ((d =? 3) && ((wd =? Mon) || (wd =? Tue)))) && (m =? 1))
  || (((d =? 2) || ((d =? 4) && ((wd =? Mon) || (wd =? Tue)))) && (m =? 1))
  || (((19 <=? d) && (d <=? 25)) && (wd =? Mon) && (m =? 1))
  || ((d =? 6) && (m =? 2))
  || (((d =? 7) || (d =? 8)) && (wd =? Mon) && (m =? 2) && (2013 <? y))
  || (yd =? (em - 3))
  || (yd =? em)
  || ((d =? 25) && (m =? 4))
  || (((d =? 26) || (d =? 27)) && (wd =? Mon) && (m =? 4) && (2013 <? y))
  || ((d <=? 7) && (wd =? Mon) && (m =? 6))
  || (((22 <=? d) && (d <=? 28)) && (wd =? Mon) && (m =? 10))
  || (((d =? 25) || ((d =? 27) && ((wd =? Mon) || (wd =? Tue)))) && (m =? 12))
  || (((d =? 26) || ((d =? 28) && ((wd =? Mon) || (wd =? Tue)))) && (m =? 12))
  || ((d =? 20) && (m =? 6) && (y =? 2025))
  || ((d =? 21) && (m =? 6) && ((y =? 2030) || (y =? 2052)))
  || ((d =? 24) && (m =? 6) && ((y =? 2022) || (y =? 2033) || (y =? 2044)))
  || ((d =? 25) && (m =? 6) && ((y =? 2027) || (y =? 2038) || (y =? 2049)))
  || ((d =? 28) && (m =? 6) && (y =? 2024))
  || ((d =? 29) && (m =? 6) && ((y =? 2035) || (y =? 2046)))
  || ((d =? 30) && (m =? 6) && (y =? 2051))
  || ((d =? 2) && (m =? 7) && (y =? 2032))
  || ((d =? 3) && (m =? 7) && ((y =? 2043) || (y =? 2048)))
  || ((d =? 6) && (m =? 7) && ((y =? 2029) || (y =? 2040)))
  || ((d =? 7) && (m =? 7) && ((y =? 2034) || (y =? 2045)))
  || ((d =? 10) && (m =? 7) && ((y =? 2026) || (y =? 2037)))
  || ((d =? 11) && (m =? 7) && ((y =? 2031) || (y =? 2042)))
  || ((d =? 14) && (m =? 7) && ((y =? 2023) || (y =? 2028)))
  || ((d =? 15) && (m =? 7) && ((y =? 2039) || (y =? 2050)))
  || ((d =? 18) && (m =? 7) && (y =? 2036))
  || ((d =? 19) && (m =? 7) && ((y =? 2041) || (y =? 2047))).
(** ** countries/singapore.rs *)
(** 45-72 *)
Definition singapore_chinese_new_year (y m d wd yd em : Z) : bool :=
  (((y =? 2004) && ((22 <=? d) && (d <=? 23)) && (m =? 1))
   || ((y =? 2005) && ((9 <=? d) && (d <=? 10)) && (m =? 2))
   || ((y =? 2006) && ((29 <=? d) && (d <=? 30)) && (m =? 1))
   || ((y =? 2007) && ((18 <=? d) && (d <=? 19)) && (m =? 2))
   || ((y =? 2008) && ((7 <=? d) && (d <=? 8)) && (m =? 2))
   || ((y =? 2009) && ((26 <=? d) && (d <=? 27)) && (m =? 1))
   || ((y =? 2010) && ((14 <=? d) && (d <=? 15)) && (m =? 2))
   || ((y =? 2011) && ((3 <=? d) && (d <=? 4)) && (m =? 2))
   || ((y =? 2012) && ((23 <=? d) && (d <=? 24)) && (m =? 1))
   || ((y =? 2013) && ((10 <=? d) && (d <=? 12)) && (m =? 2))
   || ((y =? 2014) && ((d =? 31) || (d =? 1)) && (m =? 1))
   || ((y =? 2015) && ((19 <=? d) && (d <=? 20)) && (m =? 2))
   || ((y =? 2016) && ((8 <=? d) && (d <=? 9)) && (m =? 2))
   || ((y =? 2017) && ((28 <=? d) && (d <=? 29)) && (m =? 1))
   || ((y =? 2018) && ((16 <=? d) && (d <=? 17)) && (m =? 2))
   || ((y =? 2019) && ((5 <=? d) && (d <=? 6)) && (m =? 2))
   || ((y =? 2020) && ((25 <=? d) && (d <=? 27)) && (m =? 1))
   || ((y =? 2021) && ((12 <=? d) && (d <=? 13)) && (m =? 2))
   || ((y =? 2022) && ((1 <=? d) && (d <=? 2)) && (m =? 2))
   || ((y =? 2023) && ((22 <=? d) && (d <=? 24)) && (m =? 1))
   || ((y =? 2024) && ((10 <=? d) && (d <=? 12)) && (m =? 2))).
(** 75-102 *)
Definition singapore_hari_raya_haji (y m d wd yd em : Z) : bool :=
  (((y =? 2004) && ((1 <=? d) && (d <=? 2)) && (m =? 2))
   || ((y =? 2005) && (d =? 21) && (m =? 1))
   || ((y =? 2006) && (d =? 10) && (m =? 1))
   || ((y =? 2007) && (d =? 19) && (m =? 12))
   || ((y =? 2008) && (d =? 8) && (m =? 12))
   || ((y =? 2009) && (d =? 27) && (m =? 11))
   || ((y =? 2010) && (d =? 17) && (m =? 11))
   || ((y =? 2011) && ((6 <=? d) && (d <=? 7)) && (m =? 11))
   || ((y =? 2012) && (d =? 26) && (m =? 10))
   || ((y =? 2013) && (d =? 15) && (m =? 10))
   || ((y =? 2014) && ((5 <=? d) && (d <=? 6)) && (m =? 10))
   || ((y =? 2015) && (d =? 24) && (m =? 9))
   || ((y =? 2016) && (d =? 12) && (m =? 9))
   || ((y =? 2017) && (d =? 1) && (m =? 9))
   || ((y =? 2018) && (d =? 22) && (m =? 8))
   || ((y =? 2019) && ((11 <=? d) && (d <=? 12)) && (m =? 8))
   || ((y =? 2020) && (d =? 31) && (m =? 7))
   || ((y =? 2021) && (d =? 20) && (m =? 7))
   || ((y =? 2022) && ((10 <=? d) && (d <=? 11)) && (m =? 7))
   || ((y =? 2023) && (d =? 29) && (m =? 6))
   || ((y =? 2024) && (d =? 17) && (m =? 6))).
(** 105-132 *)
Definition singapore_hari_raya_puasa (y m d wd yd em : Z) : bool :=
  (((y =? 2004) && ((14 <=? d) && (d <=? 15)) && (m =? 11))
   || ((y =? 2005) && (d =? 3) && (m =? 11))
   || ((y =? 2006) && (d =? 24) && (m =? 10))
   || ((y =? 2007) && (d =? 13) && (m =? 10))
   || ((y =? 2008) && (d =? 1) && (m =? 10))
   || ((y =? 2009) && ((20 <=? d) && (d <=? 21)) && (m =? 9))
   || ((y =? 2010) && (d =? 10) && (m =? 9))
   || ((y =? 2011) && (d =? 30) && (m =? 8))
   || ((y =? 2012) && ((19 <=? d) && (d <=? 20)) && (m =? 8))
   || ((y =? 2013) && (d =? 8) && (m =? 8))
   || ((y =? 2014) && (d =? 28) && (m =? 7))
   || ((y =? 2015) && (d =? 17) && (m =? 7))
   || ((y =? 2016) && (d =? 6) && (m =? 7))
   || ((y =? 2017) && ((25 <=? d) && (d <=? 26)) && (m =? 6))
   || ((y =? 2018) && (d =? 15) && (m =? 6))
   || ((y =? 2019) && (d =? 5) && (m =? 6))
   || ((y =? 2020) && ((24 <=? d) && (d <=? 25)) && (m =? 5))
   || ((y =? 2021) && (d =? 13) && (m =? 5))
   || ((y =? 2022) && (d =? 3) && (m =? 5))
   || ((y =? 2023) && (d =? 22) && (m =? 4))
   || ((y =? 2024) && (d =? 10) && (m =? 4))).
(** 135-162 *)
Definition singapore_vesak_day (y m d wd yd em : Z) : bool :=
  (((y =? 2004) && (d =? 2) && (m =? 6))
   || ((y =? 2005) && ((22 <=? d) && (d <=? 23)) && (m =? 10))
   || ((y =? 2006) && (d =? 12) && (m =? 5))
   || ((y =? 2007) && (d =? 31) && (m =? 5))
   || ((y =? 2008) && (d =? 19) && (m =? 5))
   || ((y =? 2009) && (d =? 9) && (m =? 5))
   || ((y =? 2010) && (d =? 28) && (m =? 5))
   || ((y =? 2011) && (d =? 17) && (m =? 5))
   || ((y =? 2012) && (d =? 5) && (m =? 5))
   || ((y =? 2013) && (d =? 24) && (m =? 5))
   || ((y =? 2014) && (d =? 13) && (m =? 5))
   || ((y =? 2015) && (d =? 1) && (m =? 6))
   || ((y =? 2016) && (d =? 21) && (m =? 5))
   || ((y =? 2017) && (d =? 10) && (m =? 5))
   || ((y =? 2018) && (d =? 29) && (m =? 5))
   || ((y =? 2019) && ((19 <=? d) && (d <=? 20)) && (m =? 5))
   || ((y =? 2020) && (d =? 7) && (m =? 5))
   || ((y =? 2021) && (d =? 26) && (m =? 5))
   || ((y =? 2022) && ((15 <=? d) && (d <=? 16)) && (m =? 5))
   || ((y =? 2023) && (d =? 2) && (m =? 6))
   || ((y =? 2024) && (d =? 22) && (m =? 5))).
(** 165-192 *)
Definition singapore_deepavali (y m d wd yd em : Z) : bool :=
  (((y =? 2004) && (d =? 11) && (m =? 11))
   || ((y =? 2005) && (d =? 1) && (m =? 11))
   || ((y =? 2006) && (d =? 21) && (m =? 10))
   || ((y =? 2007) && (d =? 8) && (m =? 11))
   || ((y =? 2008) && (d =? 27) && (m =? 10))
   || ((y =? 2009) && ((15 <=? d) && (d <=? 16)) && (m =? 11))
   || ((y =? 2010) && (d =? 5) && (m =? 11))
   || ((y =? 2011) && (d =? 26) && (m =? 10))
   || ((y =? 2012) && (d =? 13) && (m =? 11))
   || ((y =? 2013) && (d =? 2) && (m =? 11))
   || ((y =? 2014) && (d =? 22) && (m =? 10))
   || ((y =? 2015) && (d =? 10) && (m =? 11))
   || ((y =? 2016) && (d =? 29) && (m =? 10))
   || ((y =? 2017) && (d =? 18) && (m =? 10))
   || ((y =? 2018) && (d =? 6) && (m =? 11))
   || ((y =? 2019) && ((27 <=? d) && (d <=? 28)) && (m =? 10))
   || ((y =? 2020) && (d =? 14) && (m =? 11))
   || ((y =? 2021) && (d =? 4) && (m =? 11))
   || ((y =? 2022) && (d =? 24) && (m =? 10))
   || ((y =? 2023) && ((12 <=? d) && (d <=? 13)) && (m =? 11))
   || ((y =? 2024) && (d =? 31) && (m =? 10))).
(** 13-42 *)
Definition singapore_rule (y m d wd yd em : Z) : bool :=
  (((d =? 1) || ((d =? 2) && (wd =? Mon))) && (m =? 1))
  || (yd =? (em - 3))
  || (((d =? 1) || ((d =? 2) && (wd =? Mon))) && (m =? 5))
  || (((d =? 9) || ((d =? 10) && (wd =? Mon))) && (m =? 8))
  || ((d =? 25) || (((d =? 26) && (wd =? Mon)) && (m =? 12)))
  || (singapore_chinese_new_year y m d wd yd em)
  || (singapore_hari_raya_haji y m d wd yd em)
  || (singapore_hari_raya_puasa y m d wd yd em)
  || (singapore_vesak_day y m d wd yd em)
  || (singapore_deepavali y m d wd yd em).
(** ** countries/switzerland.rs *)
(** 22-24 *)
Definition switzerland_new_year (y m d wd yd em : Z) : bool :=
  ((m =? 1) && (d =? 1)).
(** 27-29 *)
Definition switzerland_berchtholdstag (y m d wd yd em : Z) : bool :=
  ((m =? 1) && (d =? 2)).
(** 32-34 *)
Definition switzerland_good_friday (y m d wd yd em : Z) : bool :=
  (yd =? (em - 3)).
(** 37-39 *)
Definition switzerland_easter_monday (y m d wd yd em : Z) : bool :=
  (yd =? em).
(** 42-44 *)
Definition switzerland_labour_day (y m d wd yd em : Z) : bool :=
  ((m =? 5) && (d =? 1)).
(** 47-49 *)
Definition switzerland_ascension_day (y m d wd yd em : Z) : bool :=
  (yd =? (em + 38)).
(** 52-54 *)
Definition switzerland_whit_monday (y m d wd yd em : Z) : bool :=
  (yd =? (em + 49)).
(** 57-59 *)
Definition switzerland_national_holiday (y m d wd yd em : Z) : bool :=
  ((m =? 8) && (d =? 1)).
(** 62-64 *)
Definition switzerland_christmas_eve (y m d wd yd em : Z) : bool :=
  ((m =? 12) && (d =? 24)).
(** 67-69 *)
Definition switzerland_christmas_day (y m d wd yd em : Z) : bool :=
  ((m =? 12) && (d =? 25)).
(** 72-74 *)
Definition switzerland_st_stephens_day (y m d wd yd em : Z) : bool :=
  ((m =? 12) && (d =? 26)).
(** 77-79 *)
Definition switzerland_new_year_eve (y m d wd yd em : Z) : bool :=
  ((m =? 12) && (d =? 31)).
(** 4-19 *)
Definition switzerland_rule (y m d wd yd em : Z) : bool :=
  (switzerland_new_year y m d wd yd em)
  || (switzerland_berchtholdstag y m d wd yd em)
  || (switzerland_good_friday y m d wd yd em)
  || (switzerland_easter_monday y m d wd yd em)
  || (switzerland_labour_day y m d wd yd em)
  || (switzerland_ascension_day y m d wd yd em)
  || (switzerland_whit_monday y m d wd yd em)
  || (switzerland_national_holiday y m d wd yd em)
  || (switzerland_christmas_eve y m d wd yd em)
  || (switzerland_christmas_day y m d wd yd em)
  || (switzerland_st_stephens_day y m d wd yd em)
  || (switzerland_new_year_eve y m d wd yd em).
(** ** countries/united_kingdom.rs *)
(** 38-58 *)
Definition united_kingdom_bank_holiday (y m d wd yd em : Z) : bool :=
  ((d <=? 7) && (wd =? Mon) && (m =? 5) && negb (y =? 1995) && negb (y =? 2020))
  || ((d =? 8) && (m =? 5) && ((y =? 1995) || (y =? 2020)))
  || ((25 <=? d) && (wd =? Mon) && (m =? 5) && negb (y =? 2002) && negb (y =? 2012) && negb (y =? 2022))
  || (((d =? 3) || (d =? 4)) && (m =? 6) && (y =? 2002))
  || (((d =? 4) || (d =? 5)) && (m =? 6) && (y =? 2012))
  || (((d =? 2) || (d =? 3)) && (m =? 6) && (y =? 2022))
  || ((25 <=? d) && (wd =? Mon) && (m =? 8))
  || ((d =? 29) && (m =? 4) && (y =? 2011))
  || ((d =? 19) && (m =? 9) && (y =? 2022))
  || ((d =? 8) && (m =? 5) && (y =? 2023)).
(** 13-36 *)
Definition united_kingdom_rule (y m d wd yd em : Z) : bool :=
  (((d =? 1) || (((d =? 2) || (d =? 3)) && (wd =? Mon))) && (m =? 1))
  || (yd =? (em - 3))
  || (yd =? em)
  || (united_kingdom_bank_holiday y m d wd yd em)
  || (((d =? 25) || ((d =? 27) && ((wd =? Mon) || (wd =? Tue)))) && (m =? 12))
  || (((d =? 26) || ((d =? 28) && ((wd =? Mon) || (wd =? Tue)))) && (m =? 12))
  || ((d =? 31) && (m =? 12) && (y =? 1999)).
(** ** countries/united_states.rs *)
(** 59-70 *)
Definition united_states_washington_birthday (y m d wd yd em : Z) : bool :=
  if (1971 <=? y)
  then (((15 <=? d) && (d <=? 21)) && (wd =? Mon) && (m =? 2))
  else (((d =? 22) || ((d =? 23) && (wd =? Mon)) || ((d =? 21) && (wd =? Fri))) && (m =? 2)).
(** 72-83 *)
Definition united_states_memorial_day (y m d wd yd em : Z) : bool :=
  if (1971 <=? y)
  then ((25 <=? d) && (wd =? Mon) && (m =? 5))
  else (((d =? 30) || ((d =? 31) && (wd =? Mon)) || ((d =? 29) && (wd =? Fri))) && (m =? 5)).
(** 85-90 *)
Definition united_states_labor_day (y m d wd yd em : Z) : bool :=
  ((d <=? 7) && (wd =? Mon) && (m =? 9)).
(** 92-97 *)
Definition united_states_columbus_day (y m d wd yd em : Z) : bool :=
  (((8 <=? d) && (d <=? 14)) && (wd =? Mon) && (m =? 10) && (1971 <=? y)).
(** 99-110 *)
Definition united_states_veterans_day (y m d wd yd em : Z) : bool :=
  if ((y <=? 1970) || (1978 <=? y))
  then (((d =? 11) || ((d =? 12) && (wd =? Mon)) || ((d =? 10) && (wd =? Fri))) && (m =? 11))
  else (((22 <=? d) && (d <=? 28)) && (wd =? Mon) && (m =? 10)).
(** 112-121 *)
Definition united_states_juneteenth (y m d wd yd em : Z) : bool :=
  (((d =? 19) || ((d =? 20) && (wd =? Mon)) || (((d =? 18) && (wd =? Fri)) && true)) && (m =? 6)
    && (2022 <=? y)).
(** 13-57 *)
Definition united_states_rule (y m d wd yd em : Z) : bool :=
  (((d =? 1) || ((d =? 2) && (wd =? Mon))) && (m =? 1))
  || ((d =? 31) && (wd =? Fri) && (m =? 12))
  || (((15 <=? d) && (d <=? 21)) && (wd =? Mon) && (m =? 1) && (1983 <=? y))
  || (united_states_washington_birthday y m d wd yd em)
  || (united_states_memorial_day y m d wd yd em)
  || (united_states_juneteenth y m d wd yd em)
  || (((d =? 4) || ((d =? 5) && (wd =? Mon)) || ((d =? 3) && (wd =? Fri))) && (m =? 7))
  || (united_states_labor_day y m d wd yd em)
  || (united_states_columbus_day y m d wd yd em)
  || (united_states_veterans_day y m d wd yd em)
  || (((22 <=? d) && (d <=? 28)) && (wd =? Thu) && (m =? 11))
  || (((d =? 25) || ((d =? 26) && (wd =? Mon)) || ((d =? 24) && (wd =? Fri))) && (m =? 12)).

(** ** countries/israel.rs *)
(** 17-34 [JEWISH_HOLIDAYS], as (month, day) *)
Definition jewish_holidays : list (Z * Z) :=
  [(12, 29); (1, 1); (1, 2); (1, 9); (1, 10); (1, 14); (1, 15); (1, 22); (1, 23); (6, 14); (7, 14); (7, 15);
   (7, 20); (7, 21); (9, 5); (9, 6)].
(** 41-73; [hebrew] gives the ordinal of the Hebrew month, the day of the month and
    whether the Hebrew year is a leap year *)
Definition israel_rule (hebrew : date -> Z * Z * bool) (dt : date) : bool :=
  let '(hm0, hd, leap) := hebrew dt in
  let wd := weekday dt in
  let hm := if leap && (7 <? hm0) then hm0 - 1 else hm0 in
  let independence :=
    ((hm =? 8) && (3 <=? hd) && (hd <=? 4) && (wd =? Thu)) || ((hm =? 8) && (2 <=? hd) && (hd <=? 3) && (wd =? Wed))
    || ((hm =? 8) && (hd =? 5) && (wd =? Mon)) || ((hm =? 8) && (hd =? 6) && (wd =? Tue))
    || ((hm =? 8) && (hd =? 5) && (wd =? Wed)) || ((hm =? 8) && (hd =? 4) && (wd =? Tue)) in
  let tisha := ((hm =? 11) && (hd =? 10) && (wd =? Sun)) || ((hm =? 11) && (hd =? 9) && (wd =? Sat)) || ((hm =? 11) && (hd =? 9)) in
  existsb (fun p => (fst p =? hm) && (snd p =? hd)) jewish_holidays || independence || tisha.
Definition israel_holiday (hebrew : date -> Z * Z * bool) (dt : date) : option bool :=
  match easter_monday false (year dt) with None => None | Some _ => Some (israel_rule hebrew dt) end.

(** calendar.rs 20-90 [Market]; [None] and [Weekends] are the last two *)
Inductive market :=
  Argentina | Australia | Austria | Botswana | Brazil | Canada | Chile | China | CzechRepublic | Denmark | Finland
| France | Germany | HongKong | Hungary | Iceland | India | Indonesia | Israel | Italy | Mexico | Netherlands
| NewZealand | Singapore | UnitedKingdom | UnitedStates | Switzerland | NoMarket | Weekends.
(** calendar.rs 406-442, the match of [is_holiday] *)
Definition holiday_of (hebrew : date -> Z * Z * bool) (mk : market) : date -> option bool :=
  match mk with
  | Argentina => country argentina_rule
  | Australia => country australia_rule
  | Austria => country austria_rule
  | Botswana => country botswana_rule
  | Brazil => country brazil_rule
  | Canada => country canada_rule
  | Chile => country chile_rule
  | China => country china_rule
  | CzechRepublic => country czech_republic_rule
  | Denmark => country denmark_rule
  | Finland => country finland_rule
  | France => country france_rule
  | Germany => country germany_rule
  | HongKong => country hong_kong_rule
  | Hungary => country hungary_rule
  | Iceland => country iceland_rule
  | India => country india_rule
  | Indonesia => country indonesia_rule
  | Israel => israel_holiday hebrew
  | Italy => country italy_rule
  | Mexico => country mexico_rule
  | Netherlands => country netherlands_rule
  | NewZealand => country new_zealand_rule
  | Singapore => country singapore_rule
  | UnitedKingdom => country united_kingdom_rule
  | UnitedStates => country united_states_rule
  | Switzerland => country switzerland_rule
  | NoMarket | Weekends => fun _ => Some false
  end.
(** calendar.rs 119-124 [Calendar::new] *)
Definition market_calendar (hebrew : date -> Z * Z * bool) (mk : market) : calendar :=
  calendar_new (match mk with Israel => true | _ => false end) (holiday_of hebrew mk).
