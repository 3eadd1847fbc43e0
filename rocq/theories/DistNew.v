(** C51, last part: which parameters the constructors accept. *)
From Coq Require Import Reals Bool Lra Lia PeanoNat.
From Verif Require Import Res InterpModel InterpProofs DistModel.
Open Scope R_scope.

(** A constructor returns its parameters exactly on the stated set and panics
    on every other input; it has no third outcome. *)
Theorem constructors_domain :
  (forall p, (0 <= p <= 1 /\ bernoulli_new p = Ret p) \/ (~ 0 <= p <= 1 /\ bernoulli_new p = Panic)) /\
  (forall n p, (0 <= p <= 1 /\ binomial_new n p = Ret (n, p)) \/ (~ 0 <= p <= 1 /\ binomial_new n p = Panic)) /\
  (forall l, (0 < l /\ poisson_new l = Ret l) \/ (l <= 0 /\ poisson_new l = Panic)) /\
  (forall l, (0 < l /\ exponential_new l = Ret l) \/ (l <= 0 /\ exponential_new l = Panic)) /\
  (forall m v, (0 < v /\ gaussian_new m v = Ret (m, v)) \/ (v <= 0 /\ gaussian_new m v = Panic)) /\
  (forall a b, (0 < a /\ 0 < b /\ gamma_new a b = Ret (a, b)) \/ ((a <= 0 \/ b <= 0) /\ gamma_new a b = Panic)) /\
  (forall k, (k <> 0%nat /\ chi_new k = Ret k) \/ (k = 0%nat /\ chi_new k = Panic)) /\
  (forall a b c, (a <= b /\ exists u, uniform_new a b c = Ret u) \/ (b < a /\ uniform_new a b c = Panic)).
Proof.
  repeat apply conj; intros;
    unfold bernoulli_new, binomial_new, poisson_new, exponential_new, gaussian_new, gamma_new, chi_new, uniform_new, unit_interval;
    repeat match goal with
    | |- context [Rleb ?a ?b] => destruct (Rleb_spec a b)
    | |- context [Rltb ?a ?b] => destruct (Rltb_spec a b)
    | |- context [Nat.ltb ?a ?b] => destruct (Nat.ltb_spec a b)
    end; cbn [andb];
    first [ left; repeat split; solve [ lra | lia | reflexivity | eauto ] | right; split; solve [ lra | lia | reflexivity ] ].
Qed.
Print Assumptions constructors_domain.
Example constructors_case : gamma_new 2 (-1) = Panic /\ gamma_new 2 1 = Ret (2, 1).
Proof. split; unfold gamma_new; repeat match goal with |- context [Rltb ?a ?b] => destruct (Rltb_spec a b) end; try lra; reflexivity. Qed.
