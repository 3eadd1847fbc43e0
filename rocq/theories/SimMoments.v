(** C88: moments and strong error of simulated paths.  The noise of a path is a list of
    independent standard normal draws, one per step; expectations are iterated
    integrals against the normal density. *)
From Coq Require Import Reals List ZArith Lra Lia.
From Coquelicot Require Import Coquelicot.
From Verif Require Import Res InterpModel InterpProofs RList StatModel SpecialFns RGen DistModel DistGauss SimModel SimProps.
Import ListNotations.
Open Scope R_scope.

(** ** Expectation over n independent standard normals *)
(** [expect n F e]: the iterated integral of F over n standard normal draws exists and
    is e. *)
Fixpoint expect (n : nat) (F : list R -> R) (e : R) : Prop :=
  match n with
  | O => F [] = e
  | S n' => exists G, (forall z, expect n' (fun l => F (z :: l)) (G z)) /\ std_E G e
  end.

Lemma std_ext f g e : (forall z, f z = g z) -> std_E f e -> std_E g e.
Proof. intros E H. unfold std_E in *. refine (igen_ext _ _ _ _ _ _ H). intro z. simpl. rewrite E. reflexivity. Qed.
Lemma std_unique f u v : std_E f u -> std_E f v -> u = v.
Proof. unfold std_E. intros A B. exact (igen_unique _ _ _ _ _ A B). Qed.
Lemma std_quadratic a b c f : (forall z, f z = a + b * z + c * z ^ 2) -> std_E f (a + c).
Proof. intro H. apply (std_poly (a + c) (- b) (- c) 0 0). intro z. rewrite H. ring. Qed.
Lemma std_lin f g a b u v : std_E f u -> std_E g v -> std_E (fun z => a * f z + b * g z) (a * u + b * v).
Proof. intros A B. unfold std_E in *. refine (igen_ext _ _ _ _ _ _ (igen_lin _ _ _ _ a b u v A B)). intro z. simpl. ring. Qed.
(** exponential tilting *)
Lemma std_tilt s g e : std_E (fun y => g (y + s)) e -> std_E (fun z => g z * exp (s * z)) (exp (s ^ 2 / 2) * e).
Proof.
  intro H. unfold std_E in *. pose proof (igen_affine _ _ (Rbar_locally m_infty) (Rbar_locally p_infty) _ 1 (- s) e (aff_m 1 _ Rlt_0_1) (aff_p 1 _ Rlt_0_1) H) as Q.
  apply (igen_scal _ _ _ (exp (s ^ 2 / 2))) in Q. refine (igen_ext _ _ _ _ _ _ Q). intro z. cbv beta. replace (1 * z + - s + s) with z by ring.
  unfold npdf. replace (- / 2 * (1 * z + - s) ^ 2) with (- / 2 * z ^ 2 + s * z + - (s ^ 2 / 2)) by field. rewrite !exp_plus.
  assert (E : exp (s ^ 2 / 2) * exp (- (s ^ 2 / 2)) = 1) by (rewrite <- exp_plus, Rplus_opp_r; apply exp_0).
  transitivity (/ sqrt (2 * PI) * exp (- / 2 * z ^ 2) * exp (s * z) * g z * (exp (s ^ 2 / 2) * exp (- (s ^ 2 / 2)))); [ring|]. rewrite E. ring.
Qed.
Lemma std_exp_affine a b s : std_E (fun z => (a + b * z) * exp (s * z)) (exp (s ^ 2 / 2) * (a + b * s)).
Proof. apply (std_tilt s (fun z => a + b * z)). replace (a + b * s) with (a + b * s + 0) by ring. apply (std_quadratic (a + b * s) b 0). intro z. ring. Qed.

Lemma expect_ext : forall n F G e, (forall l, length l = n -> F l = G l) -> expect n F e -> expect n G e.
Proof.
  induction n as [|n IH]; intros F G e H K; simpl in *; [rewrite <- H by reflexivity; exact K|]. destruct K as (V & A & B). exists V. split; [|exact B].
  intro z. apply (IH (fun l => F (z :: l))); [|apply A]. intros l Hl. apply H. simpl. congruence.
Qed.
Lemma expect_unique : forall n F u v, expect n F u -> expect n F v -> u = v.
Proof.
  induction n as [|n IH]; intros F u v A B; simpl in *; [congruence|]. destruct A as (G & A1 & A2), B as (H & B1 & B2).
  apply (std_unique G); [exact A2|]. apply (std_ext H); [|exact B2]. intro z. apply (IH (fun l => F (z :: l))); [apply B1|apply A1].
Qed.
Lemma expect_lin : forall n F G a b u v, expect n F u -> expect n G v -> expect n (fun l => a * F l + b * G l) (a * u + b * v).
Proof.
  induction n as [|n IH]; intros F G a b u v A B; simpl in *; [subst; reflexivity|]. destruct A as (f & A1 & A2), B as (g & B1 & B2).
  exists (fun z => a * f z + b * g z). split; [intro z; apply (IH (fun l => F (z :: l)) (fun l => G (z :: l))); auto|apply std_lin; assumption].
Qed.

(** run a recursion over a list of draws *)
Fixpoint run {S : Type} (g : nat -> S -> R -> S) (t : nat) (x : S) (l : list R) : S :=
  match l with [] => x | z :: l' => run g (Datatypes.S t) (g t x z) l' end.
Lemma expect_run {S : Type} (g : nat -> S -> R -> S) (V : nat -> nat -> S -> R) :
  (forall k t x, std_E (fun z => V k (Datatypes.S t) (g t x z)) (V (Datatypes.S k) t x)) ->
  forall k t x, expect k (fun l => V 0%nat (t + k)%nat (run g t x l)) (V k t x).
Proof.
  intros H. induction k as [|k IH]; intros t x; simpl; [rewrite Nat.add_0_r; reflexivity|].
  exists (fun z => V k (Datatypes.S t) (g t x z)). split; [|apply H]. intro z. rewrite <- plus_n_Sm. apply (IH (Datatypes.S t)).
Qed.

(** ** The end of a simulated path as a function of its draws *)
Definition draws (l : list R) : env := Env (fun _ t => nth t l 0) 0%Z (fun _ _ => 0) (fun _ _ _ => 0).
Definition end_value (p : process) (cfg : config) (l : list R) : fl :=
  match path (draws l) p cfg (Dynamic 0) None 0 with Ret xs => last xs None | _ => None end.
(** The end of the path is a real number X(l) for every list of draws, and E g(X(l), l) is e. *)
Definition expected (p : process) (cfg : config) (g : R -> list R -> R) (e : R) : Prop :=
  exists X, (forall l, length l = n_steps cfg -> end_value p cfg l = Some (X l)) /\ expect (n_steps cfg) (fun l => g (X l) l) e.

Lemma orbit_run (g : nat -> R -> R -> R) : forall l pre x, last (orbit (fun j y => g j y (nth j (pre ++ l) 0)) x (length pre) (length l)) 0 = run g (length pre) x l.
Proof.
  induction l as [|z l IH]; intros pre x; simpl; [reflexivity|]. specialize (IH (pre ++ [z]) (g (length pre) x z)). rewrite app_length in IH. simpl in IH. rewrite Nat.add_1_r in IH. rewrite <- app_assoc in IH. simpl in IH. rewrite <- IH.
  rewrite app_nth2, Nat.sub_diag by lia. cbn [nth]. destruct l; reflexivity.
Qed.
Lemma last_map_some : forall l d, l <> [] -> last (map Some l) None = Some (last l d : R).
Proof. induction l as [|a l IH]; intros d H; [contradiction|]. destruct l as [|b l]; [reflexivity|]. change (last (map Some (b :: l)) None = Some (last (b :: l) d)). apply IH. discriminate. Qed.
Lemma end_value_run p cfg (g : nat -> R -> R -> R) :
  (forall j y z, step_of (cfg_scheme cfg) p (dt cfg) (Some y) (time_at cfg j) z (Some 0) = Ret (Some (g j y z))) ->
  forall l, length l = n_steps cfg -> end_value p cfg l = Some (run g 0 (x_0 cfg) l).
Proof.
  intros H l Hl. unfold end_value. rewrite path_dyn.
  rewrite (loop_orbit _ _ _ _ _ _ (fun j y => g j y (nth j l 0))).
  - rewrite (last_map_some _ 0) by (destruct (n_steps cfg); discriminate). f_equal. rewrite <- Hl. apply (orbit_run g l []).
  - intros j y _. unfold path_step. cbn [bind jump_term]. apply H.
Qed.

(** A process whose drift and diffusion are affine in the state. *)
Definition affine (p : process) (a b c d : R -> R) : Prop := forall x t,
  drift p (Some x) t = Ret (Some (a t + b t * x)) /\ diffusion p (Some x) t = Ret (Some (c t + d t * x)).
Lemma affine_end p cfg a b c d : affine p a b c d -> cfg_scheme cfg = EulerMaruyama -> forall l, length l = n_steps cfg ->
  end_value p cfg l = Some (run (fun j y z => y + (a (time_at cfg j) + b (time_at cfg j) * y) * dt cfg + (c (time_at cfg j) + d (time_at cfg j) * y) * (sqrt (dt cfg) * z)) 0 (x_0 cfg) l).
Proof.
  intros A E. apply end_value_run. intros j y z. rewrite E. cbn [step_of]. destruct (A y (time_at cfg j)) as [A1 A2]. rewrite (euler_step_real _ _ _ _ _ _ _ _ A1 A2). rewrite Rplus_0_r. reflexivity.
Qed.
Lemma gbm_affine mu sigma : (forall t, 0 <= sigma t) -> affine (gbm mu sigma) (fun _ => 0) mu (fun _ => 0) sigma.
Proof. intros H x t. simpl. unfold checked, assertb. destruct (Rltb_spec (sigma t) 0); [specialize (H t); lra|]. simpl. rewrite !Rplus_0_l. split; reflexivity. Qed.
Lemma abm_affine mu sigma : (forall t, 0 <= sigma t) -> affine (abm mu sigma) mu (fun _ => 0) sigma (fun _ => 0).
Proof. intros H x t. simpl. unfold checked, assertb. destruct (Rltb_spec (sigma t) 0); [specialize (H t); lra|]. simpl. rewrite !Rmult_0_l, !Rplus_0_r. split; reflexivity. Qed.
Lemma ou_affine mu sigma theta : (forall t, 0 <= sigma t) -> affine (ou mu sigma theta) (fun t => theta t * mu t) (fun t => - theta t) sigma (fun _ => 0).
Proof. intros H x t. simpl. unfold checked, assertb. destruct (Rltb_spec (sigma t) 0); [specialize (H t); lra|]. simpl. rewrite Rmult_0_l, Rplus_0_r. split; [do 2 f_equal; ring|reflexivity]. Qed.
Lemma hull_white_affine alpha sigma theta : affine (hull_white alpha sigma theta) theta (fun t => - alpha t) sigma (fun _ => 0).
Proof. intros x t. simpl. rewrite Rmult_0_l, Rplus_0_r. split; [do 2 f_equal; ring|reflexivity]. Qed.

(** The expected end of an Euler path of an affine process is the end of the path
    without noise. *)
Theorem euler_mean_is_noiseless : forall p cfg a b c d, affine p a b c d -> cfg_scheme cfg = EulerMaruyama ->
  exists m, end_value p cfg (repeat 0 (n_steps cfg)) = Some m /\ expected p cfg (fun x _ => x) m.
Proof.
  intros p cfg a b c d A E.
  set (g := fun j y z => y + (a (time_at cfg j) + b (time_at cfg j) * y) * dt cfg + (c (time_at cfg j) + d (time_at cfg j) * y) * (sqrt (dt cfg) * z)).
  assert (N : forall k t, exists u v, forall y, run g t y (repeat 0 k) = u + v * y).
  { induction k as [|k IH]; intros t; [exists 0, 1; intro y; simpl; ring|]. destruct (IH (S t)) as (u & v & H). exists (u + v * (a (time_at cfg t) * dt cfg)), (v * (1 + b (time_at cfg t) * dt cfg)).
    intro y. simpl. rewrite H. unfold g. ring. }
  exists (run g 0 (x_0 cfg) (repeat 0 (n_steps cfg))). split; [apply (affine_end p cfg a b c d A E); apply repeat_length|].
  exists (run g 0 (x_0 cfg)). split; [apply (affine_end p cfg a b c d A E)|].
  apply (expect_run g (fun k t x => run g t x (repeat 0 k))). intros k t x. destruct (N k (S t)) as (u & v & H). cbn [repeat run].
  rewrite H. replace (u + v * g t x 0) with (u + v * (x + (a (time_at cfg t) + b (time_at cfg t) * x) * dt cfg) + 0) by (unfold g; ring).
  apply (std_quadratic _ (v * ((c (time_at cfg t) + d (time_at cfg t) * x) * sqrt (dt cfg))) 0). intro z. rewrite H. unfold g. ring.
Qed.
Print Assumptions euler_mean_is_noiseless.
Example euler_mean_case : exists m, expected (gbm (fun t => t) (fun _ => 1)) (Config 100 0 1 50 EulerMaruyama 10 false None) (fun x _ => x) m.
Proof. destruct (euler_mean_is_noiseless _ (Config 100 0 1 50 EulerMaruyama 10 false None) _ _ _ _ (gbm_affine (fun t => t) (fun _ => 1) (fun _ => Rle_0_1)) eq_refl) as (m & _ & H). exists m. exact H. Qed.
