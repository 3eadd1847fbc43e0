(** Outcomes of modelled Rust calls.

    [Ret a]   : the call returned [a];
    [Panic]   : the call panicked ([unwrap] on [None], [expect], [panic!],
                [assert!], out-of-bounds index, checked arithmetic overflow);
    [NoFuel]  : the fuel given to the model of a loop ran out.  No theorem
                treats [NoFuel] as a success. *)

Inductive res (A : Type) : Type :=
| Ret (a : A)
| Panic
| NoFuel.
Arguments Ret {A} a.
Arguments Panic {A}.
Arguments NoFuel {A}.

Definition bind {A B : Type} (m : res A) (k : A -> res B) : res B :=
  match m with
  | Ret a => k a
  | Panic => Panic
  | NoFuel => NoFuel
  end.

Definition rmap {A B : Type} (f : A -> B) (m : res A) : res B :=
  bind m (fun a => Ret (f a)).

(** [unwrap]/[expect] on an [Option]. *)
Definition unwrap {A : Type} (o : option A) : res A :=
  match o with Some a => Ret a | None => Panic end.

(** [assert!(b)] followed by the rest of the body. *)
Definition assertb {A : Type} (b : bool) (k : res A) : res A :=
  if b then k else Panic.

Notation "'let!' x := m 'in' k" := (bind m (fun x => k))
  (at level 200, x pattern, m at level 100, k at level 200,
   right associativity).

Lemma bind_ret {A B : Type} (a : A) (k : A -> res B) : bind (Ret a) k = k a.
Proof. reflexivity. Qed.

Lemma bind_Ret_inv {A B : Type} (m : res A) (k : A -> res B) (b : B) :
  bind m k = Ret b -> exists a, m = Ret a /\ k a = Ret b.
Proof. destruct m as [a| |]; cbn; intros H; try discriminate. eauto. Qed.
