(** Model of the national holiday calendars ([RustQuant_time]: countries/*.rs,
    constants.rs, [unpack_date] and [easter_monday] in utilities.rs).

    The country definitions are produced by tools/gen_countries.py from the Rust
    text: one definition per Rust function, with the same boolean structure.
    Arguments: year, month (1-12), day, weekday (Monday = 0), day of the year, and
    the Easter Monday entry of the table.

    Israel depends on the Hebrew calendar of the [icu] crate: its conversion is a
    parameter. *)
From Coq Require Import ZArith List Bool.
From Verif Require Import Res DateModel CalModel.
Import ListNotations.
Open Scope Z_scope.

Notation Mon := 0 (only parsing).
Notation Tue := 1 (only parsing).
Notation Wed := 2 (only parsing).
Notation Thu := 3 (only parsing).
Notation Fri := 4 (only parsing).
Notation Sat := 5 (only parsing).
Notation Sun := 6 (only parsing).

(** constants.rs 43-110 [EASTER_MONDAYS], first row *)
Definition western_easter_mondays : list Z :=
  [@WEST@].
(** second row *)
Definition orthodox_easter_mondays : list Z :=
  [@ORTH@].

(** utilities.rs 45-47 [easter_monday]: [EASTER_MONDAYS[..][year - 1901]] panics
    outside 1901-2199 (subtraction overflow below, index out of bounds above; a
    negative year cast to usize is out of bounds too) *)
Definition easter_monday (orthodox : bool) (y : Z) : option Z :=
  if y <? 1901 then None
  else nth_error (if orthodox then orthodox_easter_mondays else western_easter_mondays) (Z.to_nat (y - 1901)).

(** utilities.rs 30-42 [unpack_date] followed by the body of a country function *)
Definition country (rule : Z -> Z -> Z -> Z -> Z -> Z -> bool) (dt : date) : option bool :=
  match easter_monday false (year dt) with
  | None => None
  | Some em => Some (rule (year dt) (month dt) (day dt) (weekday dt) (ordinal dt) em)
  end.

