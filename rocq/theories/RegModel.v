(** Model of the regressions of crates/RustQuant_ml/src: linear_regression.rs,
    ridge_regression.rs, lasso.rs, logistic_regression.rs.

    Simplifications: [f64] is [R]; a matrix is a function of row and column with
    its dimensions given apart.  nalgebra's inverse, QR, SVD and LU solver are
    parameters.  A result with infinite or NaN entries is [NotFinite]. *)
From Coq Require Import Reals PeanoNat Bool.
From Verif Require Import Res InterpModel MatLib ActModel.
Open Scope bool_scope.
Open Scope R_scope.

(** what a fit returns: intercept and coefficients (the intercept first) *)
Inductive outcome :=
| Fitted (intercept : R) (coefficients : vec)
| NotFinite | FitErr | FitPanic.

(** [insert_column(0, 1.)] *)
Definition insert_ones (X : mat) : mat := fun i j => match j with O => 1 | S l => X i l end.

Section Linear.
(** [DMatrix::try_inverse] of a square matrix *)
Variable inverse : nat -> mat -> option mat.
(** [DMatrix::qr]: rows, columns, matrix; the factors q and r *)
Variable qr : nat -> nat -> mat -> mat * mat.
(** [DMatrix::svd]: rows, columns, matrix; the factors u, singular values, v_t *)
Variable svd : nat -> nat -> mat -> mat * vec * mat.

(** linear_regression.rs 99-114 *)
Definition linear_none (n m : nat) (X : mat) (y : vec) : outcome :=
  let x := insert_ones X in
  match inverse (S m) (mmul n (tr x) x) with
  | None => FitErr
  | Some b => let c := mvec (S m) b (mvec n (tr x) y) in Fitted (c O) c
  end.
(** 115-131; [try_inverse] panics when r is not square *)
Definition linear_qr (n m : nat) (X : mat) (y : vec) : outcome :=
  let x := insert_ones X in
  if Nat.ltb n (S m) then FitPanic else
  let (q, r) := qr n (S m) x in
  match inverse (S m) r with
  | None => FitErr
  | Some b => let c := mvec n (mmul (S m) b (tr q)) y in Fitted (c O) c
  end.
(** 132-152; [1.0 / x] of a zero singular value is infinite and spreads to every
    coefficient *)
Fixpoint all_nonzero (k : nat) (s : vec) : bool :=
  match k with O => true | S l => all_nonzero l s && negb (Reqb (s l) 0) end.
Definition linear_svd (n m : nat) (X : mat) (y : vec) : outcome :=
  let x := insert_ones X in
  let k := Nat.min n (S m) in
  let '(u, s, vt) := svd n (S m) x in
  if negb (all_nonzero k s) then NotFinite else
  let pseudo := mmul k (mmul k (tr vt) (diag (fun i => 1 / s i))) (tr u) in
  let c := mvec n pseudo y in Fitted (c O) c.

(** ridge_regression.rs 73-105 *)
Definition ridge (fit_intercept : bool) (lambda : R) (n m : nat) (X : mat) (y : vec) : outcome :=
  let x := if fit_intercept then insert_ones X else X in
  let k := if fit_intercept then S m else m in
  let reg : mat := if fit_intercept then (fun i j => if andb (Nat.eqb i 0) (Nat.eqb j 0) then 0 else eye i j) else eye in
  match inverse k (fun i j => mmul n (tr x) x i j + lambda * reg i j) with
  | None => FitErr
  | Some b =>
      let c := mvec n (mmul k b (tr x)) y in
      if fit_intercept then Fitted (c O) c
      else Fitted 0 (fun i => match i with O => 0 | S l => c l end)
  end.
End Linear.

(** linear_regression.rs 159-167, ridge 110-115, lasso 141-149 *)
Definition reg_predict (m : nat) (intercept : R) (c : vec) (input : mat) : vec :=
  fun i => mvec m input (fun j => c (S j)) i + intercept.

(** lasso.rs *)
Definition col (X : mat) (j : nat) : vec := fun i => X i j.
Definition vmean (n : nat) (v : vec) : R := bs n v / INR n.
(** 104-110 *)
Definition soft (lambda a rho : R) : R :=
  if Rltb rho (- lambda) then (rho + lambda) / a
  else if Rltb lambda rho then (rho - lambda) / a
  else 0.
Record lstate := { lc : vec; lr : vec; lmax : R }.
(** 98-118: one coordinate *)
Definition lasso_coord (n : nat) (lambda : R) (X : mat) (s : lstate) (j : nat) : lstate :=
  let x := col X j in
  let col_norm := dotn n x x in
  let rho := (dotn n (lr s) x + lc s j * col_norm) / INR n in
  let new := soft lambda (col_norm / INR n) rho in
  let delta := new - lc s j in
  {| lc := upd (lc s) j new;
     lr := (if Rltb 0 (Rabs delta) then fun i => lr s i - x i * delta else lr s);
     lmax := Rmax (lmax s) (Rabs delta) |}.
Fixpoint lasso_sweep (n : nat) (lambda : R) (X : mat) (j : nat) (s : lstate) : lstate :=
  match j with O => s | S l => lasso_coord n lambda X (lasso_sweep n lambda X l s) l end.
(** 96-123 *)
Fixpoint lasso_loop (max_iter n m : nat) (lambda tolerance : R) (X : mat) (c r : vec) : vec * vec :=
  match max_iter with
  | O => (c, r)
  | S k =>
      let s := lasso_sweep n lambda X m {| lc := c; lr := r; lmax := 0 |} in
      if Rltb (lmax s) tolerance then (lc s, lr s)
      else lasso_loop k n m lambda tolerance X (lc s) (lr s)
  end.
(** 72-136 *)
Definition lasso (fit_intercept : bool) (max_iter : nat) (lambda tolerance : R) (n m : nat) (X : mat) (y : vec) : outcome :=
  let means : vec := fun j => vmean n (col X j) in
  let x : mat := if fit_intercept then (fun i j => X i j - means j) else X in
  let r0 : vec := if fit_intercept then (fun i => y i - vmean n y) else y in
  let c := fst (lasso_loop max_iter n m lambda tolerance x (fun _ => 0) r0) in
  let intercept := if fit_intercept then vmean n y - dotn m means c else 0 in
  Fitted intercept (fun i => match i with O => intercept | S l => c l end).

(** logistic_regression.rs *)
Section Logistic.
(** [hessian.lu().solve(&z)] *)
Variable solve : nat -> mat -> vec -> option vec.
(** f64::EPSILON *)
Definition eps : R := / 2 ^ 52.
(** 91-118: what makes the validation fail; the entries are finite *)
Fixpoint anyn (n : nat) (p : nat -> bool) : bool := match n with O => false | S k => anyn k p || p k end.
Definition rejected (n : nat) (y : vec) : bool :=
  anyn n (fun i => Rltb (Rabs (y i)) eps && Rltb (Rabs (y i - 1)) eps).
(** 121-156; [None] when the division at 144 is 0/0 *)
Definition initial (n m : nat) (X : mat) (y : vec) : option vec :=
  let x0 : vec := fun j => vmean n (fun i => X i j * y i) in
  let x1 : vec := fun j => vmean n (fun i => X i j * (1 - y i)) in
  let delta : vec := fun j => x1 j - x0 j in
  let ym := vmean n y in
  let mid : vec := fun j => x1 j * ym + x0 j * (1 - ym) in
  if Reqb (dotn m delta delta) 0 then None else
  let scaler := dotn m mid delta / dotn m delta delta in
  let dir : vec := fun j => delta j * scaler in
  let bias := - dotn m dir dir in
  Some (fun j => match j with O => bias | S l => dir l end).
(** 196-197 *)
Definition mu_of (m : nat) (x : mat) (c : vec) : vec := fun i => sigmoid (mvec (S m) x c i).
Definition vnorm (k : nat) (v : vec) : R := sqrt (dotn k v v).
(** 195-223; [prev] and [cur] are [coefs] and [output.coefficients] *)
Fixpoint irls (fuel : nat) (n m : nat) (tol : R) (x : mat) (y prev cur : vec) (it : nat) : res (vec * nat) :=
  match fuel with
  | O => NoFuel
  | S f =>
      if Rleb tol (vnorm (S m) (fun j => prev j - cur j)) then
        let mu := mu_of m x cur in
        (* (y - mu).max() < tolerance; nalgebra panics on no rows *)
        if negb (anyn n (fun i => negb (Rltb (y i - mu i) tol))) then Ret (cur, it)
        else
          let hessian : mat := mmul n (fun j i => tr x j i * (mu i * (1 - mu i))) x in
          let z := mvec n (tr x) (fun i => y i - mu i) in
          match solve (S m) hessian z with
          | None => Panic
          | Some d => irls f n m tol x y cur (fun j => cur j + d j) (S it)
          end
      else Ret (cur, it)
  end.
(** 159-228 with the IRLS algorithm; [LNan]: coefficients are NaN, the loop test
    with NaN is false so the initial guess is returned *)
Inductive lout := LErr | LNan | LFit (c : vec) (iterations : nat).
Definition logistic_fit (fuel n m : nat) (tol : R) (X : mat) (y : vec) : res lout :=
  if rejected n y then Ret LErr
  else match initial n m X y with
       | None => Ret LNan
       | Some c0 => rmap (fun ci => LFit (fst ci) (snd ci)) (irls fuel n m tol (insert_ones X) y (fun _ => 0) c0 0)
       end.
End Logistic.
(** 243-251 *)
Definition predict_proba (m : nat) (c : vec) (input : mat) : vec :=
  fun i => sigmoid (mvec m input (fun j => c (S j)) i + c O).
(** 234-239 *)
Definition logit_predict (m : nat) (c : vec) (input : mat) : vec :=
  fun i => if Rltb (1 / 2) (predict_proba m c input i) then 1 else 0.
(** 259-263 *)
Definition score_misclassification (n : nat) (y yhat : vec) : R := bs n (fun i => Rabs (y i - yhat i)) / INR n.
(** 271-282 *)
Definition score_cross_entropy (n : nat) (y p : vec) : R :=
  vmean n (fun i => y i * ln (p i) + (1 - y i) * ln (1 - p i)).
