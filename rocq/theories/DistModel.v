(** Model of /repo/crates/RustQuant_math/src/distributions/*.rs.

    Simplifications: [f64] is [R].  A quotient by zero (infinite or NaN in the
    code) is [None] ([fdiv]).  A failed assertion, [todo!()] and an integer
    overflow (checked in the default build profile) are [Panic].  [as i32] and
    [as usize] truncate towards zero and [as usize] sends negative values to 0;
    their upper saturation is not modelled.  The external functions of
    the statrs crate (gamma_li, gamma_ui, gamma, digamma, beta_reg, erf_inv) are
    parameters; erfc is that of SpecialFns.  A complex number is a pair.
    [sample] (random draws) is not modelled. *)
From Coq Require Import Reals ZArith Bool.
From Coquelicot Require Import Coquelicot.
From Verif Require Import Res InterpModel StatModel SpecialFns.
Open Scope bool_scope.
Open Scope R_scope.

(** casts and powers *)
Definition tz (x : R) : Z := if Rleb 0 x then Int_part x else (- Int_part (- x))%Z.
Definition as_usize (x : R) : nat := Z.to_nat (tz x).
Definition powi (x : R) (z : Z) : R := powerRZ x z.
Definition ffloor (x : R) : R := IZR (Int_part x).
(** f64::round: half away from zero *)
Definition fround (x : R) : R := if Rleb 0 x then ffloor (x + 1 / 2) else - ffloor (- x + 1 / 2).
Definition unit_interval (p : R) : bool := Rleb 0 p && Rleb p 1.
(** complex exponential and natural powers *)
Definition cexp (z : C) : C := (exp (fst z) * cos (snd z), exp (fst z) * sin (snd z)).
Fixpoint cpow (z : C) (n : nat) : C := match n with O => RtoC 1 | S k => Cmult z (cpow z k) end.
Definition it (t : R) : C := (0, t).
(** num-complex, [Complex::powf]: the principal power in polar coordinates; the
    model is used for bases with a positive real part, where [atan2] is [atan] *)
Definition cpowf (z : C) (p : R) : C :=
  let r := Rpower (sqrt (fst z ^ 2 + snd z ^ 2)) p in
  let theta := p * atan (snd z / fst z) in
  (r * cos theta, r * sin theta).

(** (1..=n).product() with the given exclusive bound *)
Definition checked_fact (bound : Z) (n : nat) : res nat :=
  if Z.ltb (Z.of_nat (fact n)) bound then Ret (fact n) else Panic.
Definition u32_bound : Z := (2 ^ 32)%Z.
Definition usize_bound : Z := (2 ^ 64)%Z.

(** ** bernoulli.rs *)
(** 51-55 *)
Definition bernoulli_new (p : R) : res R := if unit_interval p then Ret p else Panic.
(** 70-75; the assertion on the parameter holds by construction *)
Definition bernoulli_cf (p t : R) : C := Cplus (RtoC (1 - p)) (Cmult (RtoC p) (cexp (it t))).
(** 100-105 *)
Definition bernoulli_pmf (p k : R) : res R :=
  if Reqb k 0 || Reqb k 1 then Ret (powi p (tz k) * powi (1 - p) (1 - tz k)) else Panic.
(** 117-127 *)
Definition bernoulli_cdf (p k : R) : R :=
  if (tz k <? 0)%Z then 0 else if (tz k <? 1)%Z then 1 - p else 1.
(** 138-146 *)
Definition bernoulli_inv_cdf (p u : R) : res R :=
  if unit_interval u then Ret (if Rltb u (1 - p) then 0 else 1) else Panic.
(** 157-264 *)
Definition bernoulli_mean (p : R) : R := p.
Definition bernoulli_median (p : R) : R := if Rltb p (1 / 2) then 0 else 1.
Definition bernoulli_mode (p : R) : R := if Rleb p (1 / 2) then 0 else 1.
Definition bernoulli_variance (p : R) : R := p * (1 - p).
Definition bernoulli_skewness (p : R) : option R := fdiv ((1 - p) - p) (sqrt (p * (1 - p))).
Definition bernoulli_kurtosis (p : R) : option R := fdiv (1 - 6 * p * (1 - p)) (p * (1 - p)).
(** 247-249; for p = 0 and p = 1 the code has 0 * ln 0 = NaN *)
Definition bernoulli_entropy (p : R) : option R :=
  if Reqb p 0 || Reqb p 1 then None else Some ((p - 1) * ln (1 - p) - p * ln p).
Definition bernoulli_mgf (p t : R) : R := 1 - p + p * exp t.

(** ** binomial.rs *)
(** 53-60 *)
Definition binomial_new (n : nat) (p : R) : res (nat * R) := if unit_interval p then Ret (n, p) else Panic.
(** 76-81 *)
Definition binomial_cf (n : nat) (p t : R) : C := cpow (bernoulli_cf p t) n.
(** 112-123 *)
Definition binomial_pmf (n : nat) (p k : R) : res R :=
  let j := as_usize k in
  if Nat.leb j n then
    let! fn := checked_fact u32_bound n in
    let! fj := checked_fact u32_bound j in
    let! fnj := checked_fact u32_bound (n - j) in
    if Z.ltb (Z.of_nat fj * Z.of_nat fnj) u32_bound then
      Ret (INR (Nat.div fn (fj * fnj)) * powi p (tz k) * (1 - p) ^ (n - j))
    else Panic
  else Panic.
(** 135-137; usize subtraction, and beta_reg rejects a zero first argument *)
Definition binomial_cdf (beta_reg : R -> R -> R -> R) (n : nat) (p k : R) : res R :=
  if Nat.ltb (as_usize k) n then Ret (beta_reg (INR (n - as_usize k)) (1 + k) (1 - p)) else Panic.
(** 148-159 *)
Fixpoint binomial_search (beta_reg : R -> R -> R -> R) (fuel n : nat) (p u k cdf : R) : res R :=
  match fuel with
  | O => NoFuel
  | S f => if Rltb cdf u then let! c := binomial_cdf beta_reg n p (k + 1) in binomial_search beta_reg f n p u (k + 1) c
           else Ret k
  end.
Definition binomial_inv_cdf (beta_reg : R -> R -> R -> R) (fuel n : nat) (p u : R) : res R :=
  if unit_interval u then let! c := binomial_cdf beta_reg n p 0 in binomial_search beta_reg fuel n p u 0 c else Panic.
(** 169-266 *)
Definition binomial_mean (n : nat) (p : R) : R := INR n * p.
Definition binomial_median (n : nat) (p : R) : R := ffloor (binomial_mean n p).
Definition binomial_mode (n : nat) (p : R) : R := ffloor ((INR n + 1) * p).
Definition binomial_variance (n : nat) (p : R) : R := INR n * p * (1 - p).
Definition binomial_skewness (n : nat) (p : R) : option R := fdiv (1 - 2 * p) (sqrt (binomial_variance n p)).
Definition binomial_kurtosis (n : nat) (p : R) : option R := fdiv (1 - 6 * p * (1 - p)) (binomial_variance n p).
Definition binomial_mgf (n : nat) (p t : R) : R := ((1 - p) + p * exp t) ^ n.

(** ** poisson.rs *)
(** 46-50 *)
Definition poisson_new (l : R) : res R := if Rltb 0 l then Ret l else Panic.
(** 65-68 *)
Definition poisson_cf (l t : R) : C := cexp (Cmult (RtoC l) (Cminus (cexp (it t)) (RtoC 1))).
(** 95-98 *)
Definition poisson_pmf (l x : R) : res R :=
  let! f := checked_fact usize_bound (as_usize x) in
  Ret (powi l (tz x) * exp (- l) / INR f).
(** 111-113 *)
Definition poisson_cdf (gamma_li gamma_ui : R -> R -> R) (l x : R) : option R :=
  option_map (fun q => 1 - q) (fdiv (gamma_li (x + 1) l) (gamma_ui (x + 1) l)).
(** 129-143; the third result is f64::INFINITY *)
Inductive quantile := QNan | QInf | QVal (x : R).
Fixpoint poisson_search (fuel : nat) (l p sum : R) (k : nat) : res Z :=
  match fuel with
  | O => NoFuel
  | S f => if Rltb sum p then let! m := poisson_pmf l (INR k) in poisson_search f l p (sum + m) (S k)
           else Ret (Z.of_nat k - 1)%Z
  end.
Definition f64_eps : R := / 2 ^ 52.
Definition poisson_inv_cdf (fuel : nat) (l p : R) : res quantile :=
  if negb (unit_interval p) then Ret QNan
  else if Rltb (Rabs (p - 1)) f64_eps then Ret QInf
  else rmap (fun z => QVal (IZR z)) (poisson_search fuel l p 0 0).
(** 154-240 *)
Definition poisson_mean (l : R) : R := l.
Definition poisson_median (l : R) : R := ffloor (l + 1 / 3 - 2 / 100 / l).
Definition poisson_mode (l : R) : R := ffloor l.
Definition poisson_variance (l : R) : R := l.
Definition poisson_skewness (l : R) : R := / sqrt l.
Definition poisson_kurtosis (l : R) : R := / l.
Definition poisson_mgf (l t : R) : R := exp (l * (exp t - 1)).

(** ** uniform.rs *)
Inductive class := Discrete | Continuous.
Record uniform := { ua : R; ub : R; uclass : class }.
(** 49-60 *)
Definition uniform_new (a b : R) (c : class) : res uniform :=
  if Rleb a b then
    Ret match c with
        | Discrete => {| ua := fround a; ub := fround b; uclass := Discrete |}
        | Continuous => {| ua := a; ub := b; uclass := Continuous |}
        end
  else Panic.
Definition uwidth (u : uniform) : R :=
  match uclass u with Discrete => ub u - ua u + 1 | Continuous => ub u - ua u end.
(** 76-90 *)
Definition uniform_cf (u : uniform) (t : R) : C :=
  match uclass u with
  | Discrete => Cdiv (Cminus (cexp (it (t * ua u))) (cexp (it (t * (ub u + 1)))))
                     (Cmult (Cminus (RtoC 1) (cexp (it t))) (RtoC (ub u - ua u + 1)))
  | Continuous => Cdiv (Cminus (cexp (it (t * ub u))) (cexp (it (t * ua u)))) (Cmult (it t) (RtoC (ub u - ua u)))
  end.
(** 100-118 and 129-147 *)
Definition uniform_pdf (u : uniform) (x : R) : option R :=
  if Rleb (ua u) x && Rleb x (ub u) then fdiv 1 (uwidth u) else Some 0.
(** 158-179 *)
Definition uniform_cdf (u : uniform) (x : R) : option R :=
  if Rltb x (ua u) then Some 0
  else if Rleb (ua u) x && Rleb x (ub u) then
    match uclass u with
    | Discrete => fdiv (ffloor x - ua u + 1) (ub u - ua u + 1)
    | Continuous => fdiv (x - ua u) (ub u - ua u)
    end
  else Some 1.
(** 192-198 *)
Definition uniform_inv_cdf (u : uniform) (p : R) : res R :=
  if unit_interval p then match uclass u with Discrete => Panic | Continuous => Ret (ua u + p * (ub u - ua u)) end else Panic.
(** 211-331 *)
Definition uniform_mean (u : uniform) : R := 1 / 2 * (ua u + ub u).
Definition uniform_median (u : uniform) : R := 1 / 2 * (ua u + ub u).
Definition uniform_mode (u : uniform) : res R :=
  match uclass u with Discrete => Panic | Continuous => Ret ((ua u + ub u) * (1 / 2)) end.
Definition uniform_variance (u : uniform) : R :=
  match uclass u with Discrete => (ub u - ua u + 1) ^ 2 / 12 | Continuous => (ub u - ua u) ^ 2 / 12 end.
Definition uniform_skewness (_ : uniform) : R := 0.
Definition uniform_kurtosis (u : uniform) : option R :=
  let n := ub u - ua u + 1 in
  match uclass u with Discrete => fdiv (- (6 * (n * n + 1))) (5 * (n * n - 1)) | Continuous => Some (- (6) / 5) end.
Definition uniform_entropy (u : uniform) : R := ln (uwidth u).
Definition uniform_mgf (u : uniform) (t : R) : option R :=
  let n := ub u - ua u + 1 in
  match uclass u with
  | Discrete => fdiv (exp (t * ua u) - exp (t * (ub u + 1))) (n * (1 - exp t))
  | Continuous => fdiv (exp (t * ub u) - exp (t * ua u)) (t * (ub u - ua u))
  end.

(** ** exponential.rs *)
(** 35-39 *)
Definition exponential_new (l : R) : res R := if Rltb 0 l then Ret l else Panic.
(** 51-54 *)
Definition exponential_cf (l t : R) : C := Cdiv (RtoC 1) (Cminus (RtoC 1) (Cdiv (it t) (RtoC l))).
(** 64-68 *)
Definition exponential_pdf (l x : R) : res R := if Rleb 0 x then Ret (l * exp (- l * x)) else Panic.
(** 90-94 *)
Definition exponential_cdf (l x : R) : res R := if Rleb 0 x then Ret (1 - exp (- l * x)) else Panic.
(** 104-106; no assertion: the result is infinite at p = 1 and NaN above *)
Definition exponential_inv_cdf (l p : R) : option R := if Rltb p 1 then Some (- ln (1 - p) / l) else None.
(** 116-204 *)
Definition exponential_mean (l : R) : R := / l.
Definition exponential_median (l : R) : R := ln 2 / l.
Definition exponential_mode (_ : R) : R := 0.
Definition exponential_variance (l : R) : R := (/ l) ^ 2.
Definition exponential_skewness (_ : R) : R := 2.
Definition exponential_kurtosis (_ : R) : R := 6.
Definition exponential_entropy (l : R) : R := 1 - ln l.
Definition exponential_mgf (l t : R) : res R := if Rltb t l then Ret (l * / (l - t)) else Panic.

(** ** gaussian.rs *)
(** 65-69 *)
Definition gaussian_new (m v : R) : res (R * R) := if Rltb 0 v then Ret (m, v) else Panic.
(** 84-90 *)
Definition gaussian_cf (m v t : R) : C := cexp (Cminus (Cmult (it 1) (RtoC (m * t))) (RtoC (1 / 2 * v * t ^ 2))).
(** 102-109 *)
Definition gaussian_pdf (m v x : R) : R := / sqrt (2 * PI * v) * exp (- (1 / 2) * (x - m) ^ 2 / v).
(** 137-142 *)
Definition gaussian_cdf (m v x : R) : R := 1 / 2 * erfc (- (x - m) / (sqrt 2 * sqrt v)).
(** 157-161 *)
Definition gaussian_inv_cdf (erf_inv : R -> R) (m v p : R) : R := m + sqrt 2 * sqrt v * erf_inv (2 * p - 1).
(** 173-275 *)
Definition gaussian_mean (m v : R) : R := m.
Definition gaussian_median (m v : R) : R := m.
Definition gaussian_mode (m v : R) : R := m.
Definition gaussian_variance (m v : R) : R := v.
Definition gaussian_skewness (m v : R) : R := 0.
Definition gaussian_kurtosis (m v : R) : R := 0.
Definition gaussian_entropy (m v : R) : R := 1 / 2 * (1 + ln (2 * PI * v)).
Definition gaussian_mgf (m v t : R) : R := exp (m * t + v * t * t / 2).

(** ** gamma.rs *)
(** 47-51 *)
Definition gamma_new (a b : R) : res (R * R) := if Rltb 0 a && Rltb 0 b then Ret (a, b) else Panic.
(** 55-61 *)
Definition gamma_cf (a b t : R) : C := cpowf (Cminus (RtoC 1) (Cdiv (Cmult (it 1) (RtoC t)) (RtoC b))) (- a).
(** 63-70 *)
Definition gamma_pdf (gamma : R -> R) (a b x : R) : res R :=
  if Rltb 0 x then Ret (Rpower b a * Rpower x (a - 1) * exp (- b * x) / gamma a) else Panic.
(** 76-83 *)
Definition gamma_cdf (gamma : R -> R) (gamma_li : R -> R -> R) (a b x : R) : res R :=
  if Rltb 0 x then Ret (gamma_li a (b * x) / gamma a) else Panic.
(** 89-125 *)
Definition gamma_mean (a b : R) : R := a / b.
Definition gamma_mode (a b : R) : R := if Rleb 1 a then (a - 1) / b else 0.
Definition gamma_variance (a b : R) : R := a / b ^ 2.
Definition gamma_skewness (a b : R) : R := 2 / sqrt a.
Definition gamma_kurtosis (a b : R) : R := 6 / a.
Definition gamma_mgf (a b t : R) : res R := if Rltb t b then Ret (Rpower (1 - t / b) (- a)) else Panic.

(** ** chi_squared.rs *)
(** 51-55 *)
Definition chi_new (k : nat) : res nat := if Nat.ltb 0 k then Ret k else Panic.
(** 72-77 *)
Definition chi_cf (k : nat) (t : R) : C := cpowf (Cminus (RtoC 1) (Cmult (Cmult (RtoC 2) (it 1)) (RtoC t))) (- (INR k / 2)).
(** the assertion of 90 and 125 *)
Definition chi_domain (k : nat) (x : R) : bool := if Nat.eqb k 1 then Rltb 0 x else Rleb 0 x.
(** 89-97; [Rpower 0 _] is not meaningful: the model is used for x > 0 *)
Definition chi_pdf (gamma : R -> R) (k : nat) (x : R) : res R :=
  if chi_domain k x then
    Ret (Rpower x (INR k / 2 - 1) * exp (- x / 2) / (Rpower 2 (INR k / 2) * gamma (INR k / 2)))
  else Panic.
(** 124-130 *)
Definition chi_cdf (gamma : R -> R) (gamma_li : R -> R -> R) (k : nat) (x : R) : res R :=
  if chi_domain k x then Ret (gamma_li (INR k / 2) (x / 2) / gamma (INR k / 2)) else Panic.
(** 142-160; [cdf] is the distribution function above *)
Fixpoint chi_search (cdf : R -> res R) (fuel : nat) (p x delta : R) : res R :=
  match fuel with
  | O => NoFuel
  | S f => if Rltb (/ 10 ^ 10) delta then
             let! c := cdf x in
             chi_search cdf f p (if Rltb c p then x + delta else x - delta) (delta * (1 / 2))
           else Ret x
  end.
Definition chi_inv_cdf (gamma : R -> R) (gamma_li : R -> R -> R) (fuel k : nat) (p : R) : res R :=
  if unit_interval p then chi_search (chi_cdf gamma gamma_li k) fuel p (1 / 2 * INR k) (1 / 2 * INR k) else Panic.
(** 170-270 *)
Definition chi_mean (k : nat) : R := INR k.
(** 184-186; for k >= 1 the base is positive *)
Definition chi_median (k : nat) : R := INR k * (1 - 2 / (9 * INR k)) ^ 3.
Definition chi_mode (k : nat) : R := Rmax 0 (INR k - 2).
Definition chi_variance (k : nat) : R := 2 * INR k.
Definition chi_skewness (k : nat) : R := sqrt (8 / INR k).
Definition chi_kurtosis (k : nat) : R := 12 / INR k.
(** 250-254 *)
Definition chi_entropy (gamma digamma : R -> R) (k : nat) : R :=
  INR k / 2 + ln (2 * gamma (INR k / 2)) + (1 - INR k / 2) * digamma (INR k / 2).
Definition chi_mgf (k : nat) (t : R) : res R := if Rltb t (1 / 2) then Ret (Rpower (1 - 2 * t) (- INR k / 2)) else Panic.

(** uniform.rs 362-374: what [sample] does to a raw draw from [a, b) *)
Definition uniform_sample_value (u : uniform) (draw : R) : R :=
  match uclass u with Discrete => INR (as_usize draw) | Continuous => draw end.
