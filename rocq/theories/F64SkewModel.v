(** Binary64 skewness and kurtosis: crates/RustQuant_math/src/statistic.rs 174-205. [powi(3)] is
    (x * x) * x and [powi(4)] is (x * x) * (x * x), the expansions LLVM uses; Rust leaves the
    precision of [powi] open. [neg] is the sign of the zero sums start from. *)
From Coq Require Import ZArith List Bool.
From Verif Require Import Res F64Model.

Section Skew.
  Variable neg : bool.
  (** 180-183 and 196-199: the standardised numbers *)
  Definition scores64 (m s : f64) (l : list f64) : list f64 := map (fun x => fdiv (fsub x m) s) l.
  (** [powi(3)], [powi(4)] *)
  Definition cube64 (x : f64) : f64 := fmul (fmul x x) x.
  Definition fourth64 (x : f64) : f64 := fmul (sq64 x) (sq64 x).
  (** 174-188 *)
  Definition skewness64 (l : list f64) : res f64 := assertb (2 <? length l)%nat (
    let n := of_usize (length l) in let! m := mean64 neg l in let! s := standard_deviation64 neg l in
    Ret (fdiv (fmul (fsum neg (map cube64 (scores64 m s l))) n) (fmul (fsub n one) (fsub n two)))).
  (** 190-205 *)
  Definition kurtosis64 (l : list f64) : res f64 := assertb (3 <? length l)%nat (
    let n := of_usize (length l) in let three := lit 3 0 in let! m := mean64 neg l in let! s := standard_deviation64 neg l in
    Ret (fsub (fdiv (fmul (fmul (fsum neg (map fourth64 (scores64 m s l))) n) (fadd n one)) (fmul (fmul (fsub n one) (fsub n two)) (fsub n three)))
              (fdiv (fmul three (sq64 (fsub n one))) (fmul (fsub n two) (fsub n three))))).
End Skew.
