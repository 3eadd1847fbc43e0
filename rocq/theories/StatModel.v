(** Model of the descriptive statistics (RustQuant_math/src/statistic.rs), the
    sequences (sequences.rs) and the risk-reward ratios (risk_reward.rs).

    Simplifications: [f64] is [R] and samples hold no NaN (so the
    [partial_cmp(..).unwrap()] of the sorts never panics). A float operation
    whose result is not finite (a division by zero, a fractional power of a
    negative number) gives [None]. Sums are the real sums: rounding, and the
    order dependence it causes, are outside the model. *)
From Coq Require Import Reals List Bool ZArith Arith.
From Verif Require Import Res InterpModel RList.
Import ListNotations.
Open Scope R_scope.

Definition fdiv (a b : R) : option R := if Reqb b 0 then None else Some (a / b).
Definition nonempty (v : list R) : bool := match v with [] => false | _ => true end.
Definition len (v : list R) : R := INR (length v).

(** 78-88 [mean], [arithmetic_mean] *)
Definition arithmetic_mean (v : list R) : res R := assertb (nonempty v) (Ret (rsum v / len v)).
Definition mean := arithmetic_mean.
(** [powf] with exponent [1/n]: positive base; zero; negative base only for [n = 1] *)
Definition nth_root (x : R) (n : nat) : option R :=
  if Rltb 0 x then Some (Rpower x (1 / INR n))
  else if Reqb x 0 then Some 0
  else if Nat.eqb n 1 then Some x else None.
(** 90-94 [geometric_mean] *)
Definition geometric_mean (v : list R) : res (option R) := assertb (nonempty v) (Ret (nth_root (rprod v) (length v))).
(** 96-100 [harmonic_mean]: [None] when an entry or the sum of reciprocals is zero
    (the code returns 0, infinite or NaN there) *)
Definition harmonic_mean (v : list R) : res (option R) :=
  assertb (nonempty v) (Ret (if existsb (fun x => Reqb x 0) v then None else fdiv (len v) (rsum (map (fun x => 1 / x) v)))).

(** 112, 119 *)
Definition sum_sq_dev (v : list R) (mu : R) : R := rsum (map (fun x => (x - mu) ^ 2) v).
(** 102-113 [variance], [sample_variance]: [0/0] for one element *)
Definition sample_variance (v : list R) : res (option R) :=
  assertb (nonempty v) (let! mu := mean v in Ret (fdiv (sum_sq_dev v mu) (INR (length v - 1)))).
Definition variance := sample_variance.
(** 115-120 [population_variance] *)
Definition population_variance (v : list R) : res R :=
  assertb (nonempty v) (let! mu := mean v in Ret (sum_sq_dev v mu / len v)).
(** 122-132 [standard_deviation], [sample_standard_deviation] *)
Definition standard_deviation (v : list R) : res R :=
  assertb (1 <? length v)%nat (let! s := variance v in match s with Some s => Ret (sqrt s) | None => Panic end).
(** 134-138 [population_standard_deviation] *)
Definition population_standard_deviation (v : list R) : res R :=
  assertb (1 <? length v)%nat (rmap sqrt (population_variance v)).
(** 140-159 [covariance] *)
Definition covariance (v w : list R) : res R :=
  assertb (length v =? length w)%nat (
  assertb (1 <? length v)%nat (
  let n := len v in
  let mean_x := rsum v / n in
  let mean_y := rsum w / n in
  Ret (rsum (map (fun p => (fst p - mean_x) * (snd p - mean_y)) (combine v w)) / (n - 1)))).
(** 161-172 [correlation] *)
Definition correlation (v w : list R) : res R :=
  let! cov := covariance v w in
  let! sx := standard_deviation v in
  let! sy := standard_deviation w in
  assertb (negb (Reqb sx 0 || Reqb sy 0)) (Ret (cov / (sx * sy))).
(** 174-188 [skewness]: [None] for a constant sample *)
Definition skewness (v : list R) : res (option R) :=
  assertb (2 <? length v)%nat (
  let n := len v in
  let! mu := mean v in
  let! sd := standard_deviation v in
  Ret (if Reqb sd 0 then None else
       Some (rsum (map (fun x => ((x - mu) / sd) ^ 3) v) * n / ((n - 1) * (n - 2))))).
(** 190-205 [kurtosis] *)
Definition kurtosis (v : list R) : res (option R) :=
  assertb (3 <? length v)%nat (
  let n := len v in
  let! mu := mean v in
  let! sd := standard_deviation v in
  Ret (if Reqb sd 0 then None else
       Some (rsum (map (fun x => ((x - mu) / sd) ^ 4) v) * n * (n + 1) / ((n - 1) * (n - 2) * (n - 3))
             - 3 * (n - 1) ^ 2 / ((n - 2) * (n - 3))))).
(** 207-217 [min], [max]: the first step of the fold from an infinity gives the first element *)
Definition vmin (v : list R) : res R := match v with [] => Panic | a :: v' => Ret (fold_left Rmin v' a) end.
Definition vmax (v : list R) : res R := match v with [] => Panic | a :: v' => Ret (fold_left Rmax v' a) end.
(** 279-283 [range] *)
Definition range (v : list R) : res R := let! b := vmax v in let! a := vmin v in Ret (b - a).
(** 219-231 [median] *)
Definition median (v : list R) : res R :=
  assertb (nonempty v) (
  let sorted := sort_R v in
  let mid := Nat.div (length sorted) 2 in
  if (Nat.modulo (length sorted) 2 =? 0)%nat
  then let! a := index sorted (mid - 1) in let! b := index sorted mid in Ret ((a + b) / 2)
  else index sorted mid).
(** [floor], [ceil] as [usize] (the arguments are never negative here) *)
Definition floor_usize (x : R) : nat := Z.to_nat (Int_part x).
Definition ceil_usize (x : R) : nat := Z.to_nat (- Int_part (- x)).
(** 233-265 [percentile], [quantile] (same body) *)
Definition quantile (v : list R) (p : R) : res R :=
  assertb (nonempty v) (
  assertb (Rleb 0 p && Rleb p 1) (
  let sorted := sort_R v in
  let idx := p * INR (length sorted - 1) in
  let! lower := index sorted (floor_usize idx) in
  let! upper := index sorted (ceil_usize idx) in
  Ret (lower + (upper - lower) * (idx - IZR (Int_part idx))))).
Definition percentile := quantile.
(** 267-277 [interquartile_range] *)
Definition interquartile_range (v : list R) : res R :=
  assertb (nonempty v) (
  let sorted := sort_R v in
  let! q1 := index sorted (Nat.div (length sorted) 4) in
  let! q3 := index sorted (Nat.div (length sorted * 3) 4) in
  Ret (q3 - q1)).

(** ** sequences.rs, for [T = f64] *)

(** 36-46 [seq]: [to_usize] of a negative (truncated below zero) or non-finite
    quotient is [None], so the [unwrap] panics; a zero step gives such a
    quotient. [-1 < q] truncates to zero. *)
Fixpoint seq_loop (fuel : nat) (x e step : R) : res (list R) :=
  match fuel with
  | O => NoFuel
  | S fuel' => if Rleb x e then let! r := seq_loop fuel' (x + step) e step in Ret (x :: r) else Ret []
  end.
Definition seq_R (fuel : nat) (start e step : R) : res (list R) :=
  assertb (negb (Reqb step 0) && Rltb (-1) ((e - start) / step)) (seq_loop fuel start e step).
(** 48-50 [rep] *)
Definition rep (x : R) (n : nat) : list R := repeat x n.
(** 52-65 [linspace]: for [n = 1] the step is infinite and the only entry is
    [start + 0 * inf = NaN], so [None] *)
Definition linspace (start e : R) (n : nat) : res (option (list R)) :=
  assertb (Rltb start e && (0 <? n)%nat) (
  Ret (if (n =? 1)%nat then None
       else let step := (e - start) / INR (n - 1) in Some (map (fun i => start + INR i * step) (seq 0 n)))).
(** 71-81 [cumsum] *)
Fixpoint scan_sum (acc : R) (v : list R) : list R :=
  match v with [] => [] | x :: v' => (acc + x) :: scan_sum (acc + x) v' end.
Definition cumsum (v : list R) : list R := scan_sum 0 v.

(** ** risk_reward.rs *)

(** 15-30 [PortfolioMeasures] *)
Record measures := Measures { m_rp : R; m_r : R; m_beta : R; m_sigma : R; m_down : R; m_var : R; m_rm : R }.
(** 47-49, 61-63, 75-77, 89-93, 104-106, 119-121 *)
Definition treynors_ratio (m : measures) := fdiv (m_rp m - m_r m) (m_beta m).
Definition sharpe_ratio (m : measures) := fdiv (m_rp m - m_r m) (m_sigma m).
Definition sortino_ratio (m : measures) := fdiv (m_rp m - m_r m) (m_down m).
Definition burke_ratio (m : measures) (dd : list R) := fdiv (m_rp m - m_r m) (rsum (map (fun x => x ^ 2) dd)).
Definition return_on_var (m : measures) := fdiv (m_rp m) (m_var m).
Definition jensens_alpha (m : measures) : R := m_rp m - (m_r m + m_beta m * (m_rm m - m_r m)).
