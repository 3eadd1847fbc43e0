(** The explicit finite-difference pricer in binary64
    (crates/RustQuant_instruments/src/options/finite_difference_pricer.rs; [FdModel] is the same
    code over the reals).  [exp] and [ln] are external: they are parameters.  [powi(2)] is one
    multiplication.  The year fraction is a field (F64DayModel.v models how it is computed). *)
From Coq Require Import ZArith List Bool.
From Flocq Require Import Core.Zaux IEEE754.BinarySingleNaN.
From Verif Require Import Res DateModel PayoffModel FdModel F64Model F64RootModel F64PayModel.
Import ListNotations.

(** 20-45 *)
Record fd64 := Fd64 { h_s : f64; h_k : f64; h_r : f64; h_v : f64; h_T : f64; h_nt : nat; h_np : nat; h_tf : type_flag; h_ex : exercise_flag }.
(** 67-72 *)
Definition fd64_ok (g : fd64) : bool :=
  flt zero (h_s g) && flt zero (h_k g) && flt zero (h_r g) && flt zero (h_v g) && (0 <? h_nt g)%nat && (0 <? h_np g)%nat.

(** 86-104 *)
Fixpoint tri_inner64 (sub diag super prev : f64) (v : list f64) : list f64 :=
  match v with
  | [] => []
  | [x] => [fadd (fmul sub prev) (fmul diag x)]
  | x :: ((y :: _) as v') => fadd (fadd (fmul sub prev) (fmul diag x)) (fmul super y) :: tri_inner64 sub diag super x v'
  end.
Definition tri_mul64 (sub diag super : f64) (v : list f64) : res (list f64) :=
  match v with
  | x :: ((y :: _) as v') => Ret (fadd (fmul diag x) (fmul super y) :: tri_inner64 sub diag super x v')
  | _ => Panic
  end.
(** [v[i] += x] *)
Definition add_at64 (i : nat) (x : f64) (v : list f64) : res (list f64) :=
  match nth_error v i with
  | Some y => Ret (firstn i v ++ fadd y x :: skipn (S i) v)
  | None => Panic
  end.
(** the literals 5.0 and 0.5 *)
Definition five : f64 := lit 5 0.
Definition half64 : f64 := lit 1 (-1).

Section Fd64.
  Variable exp64 ln64 : f64 -> f64.
  Variable g : fd64.

  (** 185-190: the payoff of a vanilla option *)
  Definition payoff64 (s : f64) : f64 := vanilla64 (h_tf g) (h_k g) s.
  (** 235-243 *)
  Definition fdt : f64 := fdiv (h_T g) (of_usize (h_nt g)).
  Definition half_width : f64 := fmul (fmul five (h_v g)) (fsqrt (h_T g)).
  Definition x_min64 : f64 := fsub (ln64 (h_s g)) half_width.
  Definition x_max64 : f64 := fadd (ln64 (h_s g)) half_width.
  Definition fdx : f64 := fdiv (fsub x_max64 x_min64) (of_usize (h_np g)).
  (** 245-250 *)
  Definition cx64 : f64 := fdiv (fmul (fmul half64 fdt) (fmul (h_v g) (h_v g))) (fmul fdx fdx).
  Definition cy64 : f64 := fdiv (fmul fdt (fsub (h_r g) (fmul half64 (fmul (h_v g) (h_v g))))) (fmul two fdx).
  (** 257-259 *)
  Definition sub64 : f64 := fsub cx64 cy64.
  Definition diag64 : f64 := fsub one (fmul two cx64).
  Definition super64 : f64 := fadd cx64 cy64.

  Definition node64 (i : nat) : f64 := fadd x_min64 (fmul (of_usize i) fdx).
  (** the time [(t as f64) * delta_t] *)
  Definition tau64 (t : nat) : f64 := fmul (of_usize t) fdt.
  (** 203-207 *)
  Definition initial64 : list f64 := map (fun i => payoff64 (exp64 (node64 i))) (seq 1 (h_np g - 1)).
  (** 192-201: what early exercise pays *)
  Definition exercise64 (t i : nat) : f64 := fmul (exp64 (fmul (h_r g) (tau64 t))) (payoff64 (exp64 (node64 i))).
  Definition american64 (v : list f64) (t : nat) : list f64 :=
    map (fun i => fmax (nth (i - 1) v nan) (exercise64 t i)) (seq 1 (h_np g - 1)).
  (** 209-215 *)
  Definition boundary64 (t : nat) : f64 :=
    match h_tf g with
    | Call => fsub (exp64 x_max64) (fmul (h_k g) (exp64 (fmul (fneg (h_r g)) (tau64 t))))
    | Put => fsub (fmul (h_k g) (exp64 (fmul (fneg (h_r g)) (tau64 t)))) (exp64 x_min64)
    end.
  (** 264-274 *)
  Definition add_boundary64 (t : nat) (v : list f64) : res (list f64) :=
    match h_tf g with
    | Call => if (h_np g <? 2)%nat then Panic else add_at64 (h_np g - 2) (fmul super64 (boundary64 t)) v
    | Put => add_at64 0 (fmul sub64 (boundary64 t)) v
    end.
  (** 276-280 *)
  Definition early64 : bool := match h_ex g with American a b => date_eqb a date_min && date_eqb b date_max | _ => false end.
  (** 224-233 *)
  Definition return_price64 (w : list f64) : res f64 :=
    let p := h_np g in
    if (p mod 2 =? 0)%nat then unwrap (nth_error w ((p - 1) / 2))
    else if (p <? 3)%nat then Panic
    else let! a := unwrap (nth_error w ((p - 1) / 2)) in let! b := unwrap (nth_error w ((p - 3) / 2)) in Ret (fdiv (fadd a b) two).
  (** 263-283 *)
  Definition explicit_step64 (t : nat) (v : list f64) : res (list f64) :=
    let! v1 := tri_mul64 sub64 diag64 super64 v in
    let! v2 := add_boundary64 t v1 in
    Ret (if early64 then american64 v2 t else v2).
  (** the values after [k] time steps *)
  Definition values64 (k : nat) : res (list f64) := fold_left (fun acc t => let! v := acc in explicit_step64 t v) (seq 1 k) (Ret initial64).
  Definition discount64 : f64 := exp64 (fmul (fneg (h_r g)) (h_T g)).
  (** 253-288 *)
  Definition explicit64 : res f64 := let! w := values64 (h_nt g) in rmap (fun p => fmul discount64 p) (return_price64 w).
End Fd64.
