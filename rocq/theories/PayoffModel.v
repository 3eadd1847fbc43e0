(** Model of the option payoffs, the Monte-Carlo pricer and the
    Longstaff-Schwartz pricer (RustQuant_instruments/src/options,
    src/monte_carlo_pricer.rs).

    Simplifications: [f64] is [R], prices hold no NaN or infinities. Where a
    float operation can leave the reals the model says so with [option].
    Contracts are reduced to the flags the payoffs read. *)
From Coq Require Import Reals List Bool ZArith Arith.
From Verif Require Import Res InterpModel RList StatModel.
Import ListNotations.
Open Scope R_scope.

(** option_flags.rs 14-20, 67-73, 87-99, 103-115, 119-125 *)
Inductive type_flag := Call | Put.
Inductive strike_flag := Fixed | Floating.
Inductive averaging := ArithmeticDiscrete | ArithmeticContinuous | GeometricDiscrete | GeometricContinuous.
Inductive barrier_type := UpAndOut | DownAndOut | UpAndIn | DownAndIn.
Inductive binary_type := AssetOrNothing | CashOrNothing.

(** vanilla.rs 49-54 *)
Definition vanilla_payoff (tf : type_flag) (k s : R) : R :=
  match tf with Call => Rmax (s - k) 0 | Put => Rmax (k - s) 0 end.

(** [s.last()] *)
Definition last_opt (path : list R) : option R := nth_error path (length path - 1).

(** asian.rs 48-72; [underlying\[n - 1\]] panics on an empty path; a geometric
    average that is NaN gives payoff 0, as [f64::max] drops the NaN *)
Definition asian_payoff (avm : averaging) (sf : option strike_flag) (tf : type_flag) (strike : option R) (path : list R) : res R :=
  let! terminal := unwrap (last_opt path) in
  let! average := match avm with
    | ArithmeticDiscrete => Ret (Some (rsum path / len path))
    | GeometricDiscrete => Ret (nth_root (rprod path) (length path))
    | _ => Panic
    end in
  let k := match strike with Some k => k | None => 0 end in
  let pay (f : R -> R) := match average with Some a => Rmax (f a) 0 | None => 0 end in
  match sf with
  | Some Fixed => Ret (match tf with Call => pay (fun a => a - k) | Put => pay (fun a => k - a) end)
  | Some Floating => Ret (match tf with Call => pay (fun a => terminal - a) | Put => pay (fun a => a - terminal) end)
  | None => Panic
  end.

(** barrier.rs 36-92; the [rebate] field is not read *)
Definition barrier_payoff (bt : barrier_type) (tf : type_flag) (b k : R) (rebate : option R) (path : list R) : res R :=
  let! terminal := unwrap (last_opt path) in
  let above := existsb (fun x => Rleb b x) path in
  let below := existsb (fun x => Rleb x b) path in
  let payoff := match tf with Call => Rmax (terminal - k) 0 | Put => Rmax (k - terminal) 0 end in
  Ret (match bt with
       | UpAndOut => if above then 0 else payoff
       | DownAndOut => if below then 0 else payoff
       | UpAndIn => if above then payoff else 0
       | DownAndIn => if below then payoff else 0
       end).

(** binary.rs 30-53 *)
Definition binary_payoff (bt : binary_type) (tf : type_flag) (k s : R) : R :=
  match bt, tf with
  | CashOrNothing, Call => if Rltb k s then k else 0
  | CashOrNothing, Put => if Rltb s k then k else 0
  | AssetOrNothing, Call => if Rltb k s then s else 0
  | AssetOrNothing, Put => if Rltb s k then s else 0
  end.

(** lookback.rs 30-53; [k.unwrap()] only for a fixed strike *)
Definition lookback_payoff (sf : option strike_flag) (tf : type_flag) (strike : option R) (path : list R) : res R :=
  let! terminal := unwrap (last_opt path) in
  let! s_max := vmax path in
  let! s_min := vmin path in
  match sf with
  | Some Fixed =>
      let! k := unwrap strike in
      Ret (match tf with Call => Rmax (s_max - k) 0 | Put => Rmax (k - s_min) 0 end)
  | _ => Ret (match tf with Call => Rmax (terminal - s_min) 0 | Put => Rmax (s_max - terminal) 0 end)
  end.

(** [powf]: positive base; zero base ([None] is the infinity of a negative
    power); negative bases are outside the model ([None]) *)
Definition fpow (x p : R) : option R :=
  if Rltb 0 x then Some (Rpower x p)
  else if Reqb x 0 then (if Rltb 0 p then Some 0 else if Reqb p 0 then Some 1 else None)
  else None.
(** power.rs 72-74 *)
Definition power_contract_payoff (k p s : R) : option R :=
  match fdiv s k with Some x => fpow x p | None => None end.
(** power.rs 80-85 *)
Definition power_payoff (tf : type_flag) (k p s : R) : option R :=
  option_map (fun x => match tf with Call => Rmax (x - k) 0 | Put => Rmax (k - x) 0 end) (fpow s p).
(** power.rs 91-98 *)
Definition capped_power_payoff (tf : type_flag) (k p cap s : R) : option R :=
  option_map (fun x => Rmin x cap) (power_payoff tf k p s).
(** power.rs 104-111 *)
Definition powered_payoff (tf : type_flag) (k p s : R) : option R :=
  fpow (match tf with Call => Rmax (s - k) 0 | Put => Rmax (k - s) 0 end) p.
(** log.rs 46-48, 54-56, 62-64: [None] outside the domain of the logarithm,
    except that the log option turns the NaN or [-inf] into 0 *)
Definition fln (x : R) : option R := if Rltb 0 x then Some (ln x) else None.
Definition log_moneyness_payoff (k s : R) : option R := match fdiv s k with Some x => fln x | None => None end.
Definition log_underlying_payoff (s : R) : option R := fln s.
Definition log_option_payoff (k s : R) : option R :=
  match fdiv s k with
  | Some x => Some (match fln x with Some y => Rmax y 0 | None => 0 end)
  | None => None
  end.
(** supershare.rs 29-34 *)
Definition supershare_payoff (k1 k2 s : R) : option R :=
  if Rleb k1 s && Rleb s k2 then fdiv s k1 else Some 0.

(** ** monte_carlo_pricer.rs *)

(** 63-65 [path_independent] *)
Definition path_independent (path : list R) : R := match last_opt path with Some s => s | None => 0 end.
(** 50-55: the fold over the simulated paths *)
Fixpoint sum_payoffs (payoff : list R -> res R) (paths : list (list R)) : res R :=
  match paths with
  | [] => Ret 0
  | p :: ps => let! x := payoff p in let! r := sum_payoffs payoff ps in Ret (x + r)
  end.
(** 38-58 [price_monte_carlo], on the paths that [process.generate] returned;
    no path at all is 0/0 *)
Definition price_mc (payoff : list R -> res R) (paths : list (list R)) (t0 tn rate : R) : res (option R) :=
  let df := exp (- rate * (tn - t0)) in
  let! s := sum_payoffs payoff paths in
  Ret (fdiv (df * s) (INR (length paths))).

(** ** longstaff_schwartz.rs

    [draw i j]: the standard normal variate for simulation [j] of the stream
    seeded for time step [i] ([time_steps] for the end points, 165-176;
    otherwise 199-203). [solve]: nalgebra's QR solution of the normal
    equations (107-109). *)
Record lsm := Lsm { l_s0 : R; l_k : R; l_r : R; l_v : R; l_steps : nat; l_tf : type_flag; l_sims : nat }.
Section Lsm.
  Variable draw : nat -> nat -> R.
  Variable solve : list (list R) -> list R -> option (list R).
  Variable m : lsm.
  Variable end_time : R.

  (** 47-56 the assertions of [new] (the date one is [0 < end_time]) *)
  Definition lsm_ok : bool :=
    Rltb 0 end_time && Rltb 0 (l_s0 m) && Rltb 0 (l_k m) && Rltb 0 (l_r m) && Rltb 0 (l_v m)
    && (0 <? l_steps m)%nat && (0 <? l_sims m)%nat.
  Definition delta_t : R := end_time / INR (l_steps m).
  (** 161-163 *)
  Definition discount : R := exp (- l_r m * delta_t).
  (** 186-191 *)
  Definition calculate_payoff (s : R) : R := vanilla_payoff (l_tf m) (l_k m) s.
  (** 165-176 *)
  Definition end_points : list R :=
    map (fun j => (l_r m - / 2 * l_v m * l_v m) * end_time + l_v m * sqrt end_time * draw (l_steps m) j) (seq 0 (l_sims m)).
  (** 178-184 *)
  Definition asset_prices (chain : list R) : list R := map (fun x => l_s0 m * exp x) chain.
  (** 193-214 *)
  Definition backwards (chain : list R) (step : nat) : list R :=
    let current := INR step * delta_t in
    map (fun p => snd p * current / (current + delta_t)
                  + l_v m * sqrt (current * delta_t / (current + delta_t)) * draw step (fst p))
        (combine (seq 0 (length chain)) chain).
  (** 142-159: one row of [create_laguerre_matrix] *)
  Definition laguerre_row (x : R) : list R :=
    let l0 := 1 in
    let l1 := 1 - x in
    let next (j lp lpp : R) := ((2 * (j - 1) + 1 - x) * lp - (j - 1) * lpp) / j in
    let l2 := next 2 l1 l0 in
    let l3 := next 3 l2 l1 in
    let l4 := next 4 l3 l2 in
    [l0; l1; l2; l3; l4].
  Definition dot (a b : list R) : R := rsum (map (fun p => fst p * snd p) (combine a b)).
  (** 115-130: walk the simulations, consuming one continuation value per
      in-the-money path; indexing past the end panics *)
  Fixpoint update (cont : list R) (prices pay : list R) : res (list R) :=
    match prices, pay with
    | s :: prices', p :: pay' =>
        let now := calculate_payoff s in
        if Rltb 0 now then
          match cont with
          | [] => Panic
          | c :: cont' =>
              let! r := update cont' prices' pay' in
              Ret ((if Rltb c now then now else discount * p) :: r)
          end
        else let! r := update cont prices' pay' in Ret (discount * p :: r)
    | _, _ => Ret []
    end.
  (** 85-137: one time step. 223-240: the regressors are the positive payoffs *)
  Definition lsm_step (step : nat) (st : list R * list R) : res (list R * list R) :=
    let '(chain, pay) := st in
    let chain := backwards chain step in
    let prices := asset_prices chain in
    let itm := filter (fun x => Rltb 0 x) (map calculate_payoff prices) in
    let itm_pay := map snd (filter (fun q => Rltb 0 (calculate_payoff (fst q))) (combine prices pay)) in
    let rows := map laguerre_row itm in
    match solve rows (map (Rmult discount) itm_pay) with
    | Some coef => let! pay := update (map (dot coef) rows) prices pay in Ret (chain, pay)
    | None => Ret (chain, map (Rmult discount) pay)
    end.
  (** 84: [(1..time_steps).rev()] *)
  Fixpoint lsm_loop (step : nat) (st : list R * list R) : res (list R * list R) :=
    match step with
    | O => Ret st
    | S step' => let! st := lsm_step step st in lsm_loop step' st
    end.
  (** 73-140 [generate_price] *)
  Definition generate_price : res R :=
    assertb lsm_ok (
    let chain := end_points in
    let pay := map calculate_payoff (asset_prices chain) in
    let! st := lsm_loop (l_steps m - 1) (chain, pay) in
    Ret (rsum (snd st) / INR (l_sims m))).
End Lsm.
