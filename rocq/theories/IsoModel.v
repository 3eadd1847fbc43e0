(** Model of the country and market codes
    (crates/RustQuant_iso/src/iso_3166.rs, iso_10383.rs).

    Simplifications: a [&'static str] is its bytes; the name of a market constant
    is kept beside it as [mic]; cities and descriptions are left out. *)
From Coq Require Import List String Ascii Bool.
Import ListNotations.

(** iso_3166.rs 18-27 [struct ISO_3166] *)
Record iso3166 := Iso3166 { alpha_2 : string; alpha_3 : string; numeric : string }.
(** iso_10383.rs 40-46 [enum OperatingOrSegment], 49-60 [enum MICStatus] *)
Inductive oprt_sgmt := Operating | Segment.
Inductive mic_status := Active | Updated | Expired.
(** iso_10383.rs 18-36 [struct ISO_10383] *)
Record venue := Venue { mic : string; operating_mic : string; country_code : string; flag : oprt_sgmt; status : mic_status }.

(** the constant a name stands for *)
Definition constant {A} (table : list (string * A)) (name : string) : option A :=
  option_map snd (find (fun e => String.eqb (fst e) name) table).
(** iso_3166.rs 48-303 [from_alpha_2]: the first arm whose pattern is the string *)
Definition from_alpha_2 (arms : list (string * string)) (table : list (string * iso3166)) (s : string) : option iso3166 :=
  match find (fun a => String.eqb (fst a) s) arms with
  | Some a => constant table (snd a)
  | None => None
  end.
