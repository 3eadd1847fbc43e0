(** Model of the tanh-sinh quadrature (crates/RustQuant_math/src/integration.rs 36-291).

    Simplifications:
    - [f64] is [R]: the literals of the tables are the decimals written there, not
      their nearest doubles (they differ by at most 6e-17), and sums do not round;
    - an integrand that returns a NaN or an infinity returns [None]. *)
From Coq Require Import Reals List ZArith.
Import ListNotations.
Open Scope R_scope.

(** a decimal literal: digits [m], [e] of them after the point *)
Definition decimal := (Z * Z)%type.
Definition dec (m e : Z) : decimal := (m, e).
Definition dval (d : decimal) : R := IZR (fst d) / IZR (10 ^ snd d).

(** integration.rs 86-187 [ABSCISSAE] *)
Definition ABSCISSAE : list decimal := [
  dec (-10) 1;
  dec (-10) 1;
  dec (-10) 1;
  dec (-10) 1;
  dec (-10) 1;
  dec (-10) 1;
  dec (-10) 1;
  dec (-10) 1;
  dec (-10) 1;
  dec (-10) 1;
  dec (-10) 1;
  dec (-10) 1;
  dec (-10) 1;
  dec (-10) 1;
  dec (-10) 1;
  dec (-10) 1;
  dec (-99999999999999999999999992) 26;
  dec (-99999999999999999999999995) 26;
  dec (-99999999999999999999999998) 26;
  dec (-99999999999999999999999991) 26;
  dec (-99999999999999999999999995) 26;
  dec (-99999999999999999999999877) 26;
  dec (-99999999999999999999910326) 26;
  dec (-9999999999999999997039324) 25;
  dec (-9999999999999999505317162) 25;
  dec (-9999999999999954) 16;
  dec (-9999999999997554) 16;
  dec (-9999999999917284) 16;
  dec (-9999999998146703) 16;
  dec (-9999999971113436) 16;
  dec (-9999999672978459) 16;
  dec (-9999997206545436) 16;
  dec (-999998137805321) 15;
  dec (-9999900191438567) 16;
  dec (-9999558409786934) 16;
  dec (-999834913162265) 15;
  dec (-999467635803999) 15;
  dec (-9984919387316029) 16;
  dec (-9961867715852437) 16;
  dec (-9912725602365509) 16;
  dec (-9817015659738769) 16;
  dec (-9644953799311114) 16;
  dec (-9357086887401398) 16;
  dec (-8906131539706369) 16;
  dec (-8241909724684122) 16;
  dec (-7319829549775685) 16;
  dec (-6112289330475506) 16;
  dec (-4620723424456371) 16;
  dec (-2884351638903986) 16;
  dec (-9812069704907877) 17;
  dec (9812069704907875) 17;
  dec (28843516389039864) 17;
  dec (46207234244563719) 17;
  dec (6112289330475507) 16;
  dec (7319829549775685) 16;
  dec (8241909724684122) 16;
  dec (8906131539706369) 16;
  dec (9357086887401399) 16;
  dec (9644953799311115) 16;
  dec (9817015659738769) 16;
  dec (991272560236551) 15;
  dec (9961867715852437) 16;
  dec (998491938731603) 15;
  dec (999467635803999) 15;
  dec (999834913162265) 15;
  dec (9999558409786935) 16;
  dec (9999900191438568) 16;
  dec (9999981378053211) 16;
  dec (9999997206545437) 16;
  dec (999999967297846) 15;
  dec (9999999971113437) 16;
  dec (9999999998146702) 16;
  dec (9999999999917284) 16;
  dec (9999999999997554) 16;
  dec (9999999999999954) 16;
  dec (99999999999999995053174) 23;
  dec (99999999999999999970394) 23;
  dec (999999999999999999999156) 24;
  dec (999999999999999999999987) 24;
  dec (999999999999999999999985) 24;
  dec (999999999999999999999951) 24;
  dec (999999999999999999999958) 24;
  dec (999999999999999999999955) 24;
  dec (999999999999999999999912) 24;
  dec (10) 1;
  dec (10) 1;
  dec (10) 1;
  dec (10) 1;
  dec (10) 1;
  dec (10) 1;
  dec (10) 1;
  dec (10) 1;
  dec (10) 1;
  dec (10) 1;
  dec (10) 1;
  dec (10) 1;
  dec (10) 1;
  dec (10) 1;
  dec (10) 1;
  dec (10) 1].
(** integration.rs 190-291 [WEIGHTS] *)
Definition WEIGHTS : list decimal := [
  dec (0) 1;
  dec (4575617930178338) 310;
  dec (3316994462570346) 275;
  dec (18652126224951735) 245;
  dec (2479121672052092) 217;
  dec (2081537448295626) 193;
  dec (26282020113568824) 173;
  dec (10726298856549833) 154;
  dec (2779482305261637) 137;
  dec (8296418844663515) 123;
  dec (4824667051120648) 110;
  dec (8690880649537159) 99;
  dec (7300384623604137) 89;
  dec (4102662749806205) 80;
  dec (2120927715027845) 72;
  dec (13358249934060332) 66;
  dec (13134068783205991) 60;
  dec (25088078163950786) 55;
  dec (11291938670594328) 50;
  dec (14198949758810438) 46;
  dec (57967544218961544) 43;
  dec (8772732913927396) 39;
  dec (5532447125135289) 36;
  dec (16120262304040781) 34;
  dec (23772412457440436) 32;
  dec (1922871877455573) 29;
  dec (9158786378811089) 28;
  dec (27350196856077823) 27;
  dec (5412036348700474) 25;
  dec (7452095495199113) 24;
  dec (7455643353281056) 23;
  dec (5630935258210419) 22;
  dec (3320892221887424) 21;
  dec (15758692556974202) 21;
  dec (617894087919728) 19;
  dec (20496122229359242) 20;
  dec (5873088850232362) 19;
  dec (14808565224807768) 19;
  dec (333910890615536) 17;
  dec (6827704416155456) 18;
  dec (12809851589261179) 18;
  dec (2226290836707166) 17;
  dec (3610662328000348) 17;
  dec (5493500171981043) 17;
  dec (7867210439287516) 17;
  dec (10622501864477554) 17;
  dec (13527485447886908) 17;
  dec (16238710772598652) 17;
  dec (183570841955285) 15;
  dec (19523423322883865) 17;
  dec (19523423322883865) 17;
  dec (183570841955285) 15;
  dec (16238710772598652) 17;
  dec (13527485447886908) 17;
  dec (10622501864477554) 17;
  dec (7867210439287516) 17;
  dec (5493500171981043) 17;
  dec (3610662328000348) 17;
  dec (2226290836707166) 17;
  dec (12809851589261179) 18;
  dec (6827704416155456) 18;
  dec (333910890615536) 17;
  dec (14808565224807768) 19;
  dec (5873088850232362) 19;
  dec (20496122229359242) 20;
  dec (617894087919728) 19;
  dec (15758692556974202) 21;
  dec (3320892221887424) 21;
  dec (5630935258210419) 22;
  dec (7455643353281056) 23;
  dec (7452095495199113) 24;
  dec (5412036348700474) 25;
  dec (27350196856077823) 27;
  dec (9158786378811089) 28;
  dec (1922871877455573) 29;
  dec (23772412457440436) 32;
  dec (16120262304040781) 34;
  dec (5532447125135289) 36;
  dec (8772732913927396) 39;
  dec (57967544218961544) 43;
  dec (14198949758810438) 46;
  dec (11291938670594328) 50;
  dec (25088078163950786) 55;
  dec (13134068783205991) 60;
  dec (13358249934060332) 66;
  dec (2120927715027845) 72;
  dec (4102662749806205) 80;
  dec (7300384623604137) 89;
  dec (8690880649537159) 99;
  dec (4824667051120648) 110;
  dec (8296418844663515) 123;
  dec (2779482305261637) 137;
  dec (10726298856549833) 154;
  dec (26282020113568824) 173;
  dec (2081537448295626) 193;
  dec (2479121672052092) 217;
  dec (18652126224951735) 245;
  dec (3316994462570346) 275;
  dec (4575617930178338) 310;
  dec (0) 1].

(** 65-76 [tanhsinh]: the sum over [i] from 0 to 99 *)
Definition tanhsinh (f : R -> R) : R :=
  fold_left (fun integral i => integral + dval (nth i WEIGHTS (dec 0 0)) * f (dval (nth i ABSCISSAE (dec 0 0)))) (seq 0 100) 0.

(** 36-62 [integrate] *)
Definition integrate (f : R -> option R) (a b : R) : R :=
  let c := / 2 * (b - a) in
  let d := / 2 * (a + b) in
  c * tanhsinh (fun t => match f (c * t + d) with Some out => out | None => 0 end).
