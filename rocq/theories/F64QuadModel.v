(** Model of the tanh-sinh quadrature in binary64 (crates/RustQuant_math/src/integration.rs 36-291).
    The integrand is any function on binary64 numbers. *)
From Coq Require Import ZArith List Bool.
From Flocq Require Import Core.Zaux IEEE754.BinarySingleNaN.
From Verif Require Import Res F64Model.
Import ListNotations.

(** 86-187 [ABSCISSAE] as the compiler reads it: the doubles nearest to the decimals, each as
    significand and exponent of two *)
Definition ABSCISSAE64 : list (Z * Z) := [
  (-4503599627370496, -52); (-4503599627370496, -52); (-4503599627370496, -52); (-4503599627370496, -52); (-4503599627370496, -52);
  (-4503599627370496, -52); (-4503599627370496, -52); (-4503599627370496, -52); (-4503599627370496, -52); (-4503599627370496, -52);
  (-4503599627370496, -52); (-4503599627370496, -52); (-4503599627370496, -52); (-4503599627370496, -52); (-4503599627370496, -52);
  (-4503599627370496, -52); (-4503599627370496, -52); (-4503599627370496, -52); (-4503599627370496, -52); (-4503599627370496, -52);
  (-4503599627370496, -52); (-4503599627370496, -52); (-4503599627370496, -52); (-4503599627370496, -52); (-4503599627370496, -52);
  (-9007199254740951, -53); (-9007199254738789, -53); (-9007199254666488, -53); (-9007199253071690, -53); (-9007199228722288, -53);
  (-9007198960186174, -53); (-9007196738620805, -53); (-9007182481582467, -53); (-9007109355180976, -53); (-9006801505637189, -53);
  (-9005712284699178, -53); (-9002404144351521, -53); (-8993615846408182, -53); (-8972852746605442, -53); (-8928589465807856, -53);
  (-8842381613417969, -53); (-8687402067316637, -53); (-8428114603874858, -53); (-8021930136706845, -53); (-7423652312981736, -53);
  (-6593116326557064, -53); (-5505460790222029, -53); (-8323955317025534, -54); (-5195985986469388, -54); (-7070341354681032, -56);
  (7070341354681030, -56); (5195985986469389, -54); (8323955317025535, -54); (5505460790222030, -53); (6593116326557064, -53);
  (7423652312981736, -53); (8021930136706845, -53); (8428114603874859, -53); (8687402067316637, -53); (8842381613417969, -53);
  (8928589465807857, -53); (8972852746605442, -53); (8993615846408183, -53); (9002404144351521, -53); (9005712284699178, -53);
  (9006801505637190, -53); (9007109355180977, -53); (9007182481582468, -53); (9007196738620806, -53); (9007198960186175, -53);
  (9007199228722289, -53); (9007199253071690, -53); (9007199254666488, -53); (9007199254738789, -53); (9007199254740951, -53);
  (4503599627370496, -52); (4503599627370496, -52); (4503599627370496, -52); (4503599627370496, -52); (4503599627370496, -52);
  (4503599627370496, -52); (4503599627370496, -52); (4503599627370496, -52); (4503599627370496, -52); (4503599627370496, -52);
  (4503599627370496, -52); (4503599627370496, -52); (4503599627370496, -52); (4503599627370496, -52); (4503599627370496, -52);
  (4503599627370496, -52); (4503599627370496, -52); (4503599627370496, -52); (4503599627370496, -52); (4503599627370496, -52);
  (4503599627370496, -52); (4503599627370496, -52); (4503599627370496, -52); (4503599627370496, -52); (4503599627370496, -52)]%Z.
(** 190-291 [WEIGHTS], likewise *)
Definition WEIGHTS64 : list (Z * Z) := [
  (0, 0); (5264356442134091, -1030); (4593680474133493, -914); (5094303615872000, -812); (5469589224383722, -722);
  (7597512800964499, -643); (8125428232766482, -573); (7190807743389153, -511); (5171802554773967, -456); (5484397196848715, -408);
  (7251799051048128, -366); (4752283749925701, -328); (4647233162300226, -295); (4864572326258413, -266); (7494709815808147, -241);
  (5627151652948986, -218); (5276408700912023, -198); (7689473583029891, -181); (5281019793828400, -165); (8106167312844017, -152);
  (8079496458822614, -140); (5970412640632872, -129); (7353883603929600, -120); (8370118732002835, -112); (4821618067287585, -104);
  (6093824224046349, -98); (4535211347836722, -92); (8464475942618966, -88); (5234200382909508, -83); (4504515327190037, -79);
  (5633324844762289, -76); (5318267986116363, -73); (7841235060931838, -71); (4651145096556395, -68); (4559253641805364, -66);
  (7561734425369184, -65); (5416968347119673, -63); (6829245320021601, -62); (7699460928261521, -61); (7871807248484762, -60);
  (7384376684040704, -59); (6416846452872155, -58); (5203512804781778, -57); (7916968104797946, -57); (5668922560451285, -56);
  (7654319270176562, -56); (4873790273789063, -55); (5850612142756204, -55); (6613836603407278, -55); (7034054560154898, -55);
  (7034054560154898, -55); (6613836603407278, -55); (5850612142756204, -55); (4873790273789063, -55); (7654319270176562, -56);
  (5668922560451285, -56); (7916968104797946, -57); (5203512804781778, -57); (6416846452872155, -58); (7384376684040704, -59);
  (7871807248484762, -60); (7699460928261521, -61); (6829245320021601, -62); (5416968347119673, -63); (7561734425369184, -65);
  (4559253641805364, -66); (4651145096556395, -68); (7841235060931838, -71); (5318267986116363, -73); (5633324844762289, -76);
  (4504515327190037, -79); (5234200382909508, -83); (8464475942618966, -88); (4535211347836722, -92); (6093824224046349, -98);
  (4821618067287585, -104); (8370118732002835, -112); (7353883603929600, -120); (5970412640632872, -129); (8079496458822614, -140);
  (8106167312844017, -152); (5281019793828400, -165); (7689473583029891, -181); (5276408700912023, -198); (5627151652948986, -218);
  (7494709815808147, -241); (4864572326258413, -266); (4647233162300226, -295); (4752283749925701, -328); (7251799051048128, -366);
  (5484397196848715, -408); (5171802554773967, -456); (7190807743389153, -511); (8125428232766482, -573); (7597512800964499, -643);
  (5469589224383722, -722); (5094303615872000, -812); (4593680474133493, -914); (5264356442134091, -1030); (0, 0)]%Z.
Definition entry (p : Z * Z) : f64 := lit (fst p) (snd p).
Definition wt64 (i : nat) : f64 := entry (nth i WEIGHTS64 (0, 0)%Z).
Definition nd64 (i : nat) : f64 := entry (nth i ABSCISSAE64 (0, 0)%Z).

(** 65-76 [tanhsinh] *)
Definition tanhsinh64 (f : f64 -> f64) : f64 := fold_left (fun integral i => fadd integral (fmul (wt64 i) (f (nd64 i)))) (seq 0 100) zero.
(** 36-62 [integrate]; the literal 0.5 *)
Definition chalf : f64 := lit 1 (-1).
Definition cscale (a b : f64) : f64 := fmul chalf (fsub b a).
Definition cshift (a b : f64) : f64 := fmul chalf (fadd a b).
Definition node64 (a b t : f64) : f64 := fadd (fmul (cscale a b) t) (cshift a b).
Definition integrate64 (f : f64 -> f64) (a b : f64) : f64 :=
  fmul (cscale a b) (tanhsinh64 (fun t => let out := f (node64 a b t) in if is_finite out then out else zero)).
