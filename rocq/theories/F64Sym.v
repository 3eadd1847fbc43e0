(** Property C117: covariance and correlation are exactly symmetric in binary64, and exactly odd in each sample. *)
From Coq Require Import ZArith Reals List Bool Lia Lra Psatz.
From Flocq Require Import Core.Core IEEE754.BinarySingleNaN.
From Verif Require Import Res F64Model F64Base F64Order F64Sum F64Quad F64FdGrid F64Cov F64Corr F64Skew.
Import ListNotations.
Local Open Scope R_scope.

Lemma fmul_comm x y : fmul x y = fmul y x.
Proof.
  unfold fmul, Bmult. destruct x as [a|a| |a m e E], y as [b|b| |b n f F]; try reflexivity; try (rewrite xorb_comm; reflexivity).
  apply B2SF_inj. rewrite !B2SF_SF2B. rewrite (xorb_comm a b), (Pos.mul_comm m n), (Z.add_comm e f). reflexivity.
Qed.
Lemma swap_products mx my (l k : list f64) : map (dev64 mx my) (combine l k) = map (dev64 my mx) (combine k l).
Proof. revert k. induction l as [|x l IH]; intros [|y k]; try reflexivity. cbn [combine map]. rewrite IH. f_equal. unfold dev64. cbn [fst snd]. apply fmul_comm. Qed.
(** The order of the two samples does not matter, bit for bit, panics and NaN included. *)
Theorem covariance64_symmetric neg l k : covariance64 neg l k = covariance64 neg k l.
Proof.
  unfold covariance64. rewrite (Nat.eqb_sym (length k)). destruct (Nat.eqb_spec (length l) (length k)) as [L|]; [|reflexivity]. cbn [assertb]. rewrite <- L. destruct (1 <? length l)%nat; [|reflexivity]. cbn [assertb]. cbv zeta. do 3 f_equal. apply swap_products.
Qed.
Print Assumptions covariance64_symmetric.
Theorem correlation64_symmetric neg l k : correlation64 neg l k = correlation64 neg k l.
Proof.
  unfold correlation64. rewrite (covariance64_symmetric neg k l). destruct (covariance64 neg l k) as [c| |] eqn:E; try reflexivity. cbn [bind].
  assert (P : (exists a, standard_deviation64 neg l = Ret a) /\ exists b, standard_deviation64 neg k = Ret b).
  { unfold covariance64 in E. destruct (Nat.eqb_spec (length l) (length k)) as [L|]; [|discriminate E]. destruct (Nat.ltb_spec 1 (length l)) as [L2|]; [|discriminate E]. unfold standard_deviation64, sample_variance64, mean64, nonempty. rewrite <- L. destruct (Nat.eqb_spec (length l) 0); [lia|]. destruct (Nat.ltb_spec 1 (length l)); [|lia]. cbn. split; eexists; reflexivity. }
  destruct P as [[a ->] [b ->]]. cbn [bind]. rewrite orb_comm, (fmul_comm a b). reflexivity.
Qed.
Print Assumptions correlation64_symmetric.
Lemma two_combine c d l k l' k' : Forall2 (same c) l l' -> Forall2 (same d) k k' -> Forall2 (fun p q => same c (fst p) (fst q) /\ same d (snd p) (snd q)) (combine l k) (combine l' k').
Proof. intros H. revert k k'. induction H as [|x y l l' XY H IH]; intros k k' K; [constructor|]. destruct K as [|a b k k' AB K]; [constructor|]. cbn [combine]. constructor; [split; assumption|apply IH, K]. Qed.
Lemma two_map {A} (P : A -> A -> Prop) c (f g : A -> f64) l k : Forall2 P l k -> (forall x y, P x y -> same c (f x) (g y)) -> Forall2 (same c) (map f l) (map g k).
Proof. intros H K. induction H; cbn; constructor; auto. Qed.
(** Changing the sign of one sample (or of both) changes the sign of the covariance (or keeps it), exactly. *)
Theorem covariance64_signs c d neg l k l' k' v : sgn c -> sgn d -> small (length l) -> Forall2 (same c) l l' -> Forall2 (same d) k k' -> covariance64 neg l k = Ret v -> fin v ->
  exists v', covariance64 neg l' k' = Ret v' /\ fin v' /\ val v' = c * d * val v.
Proof.
  intros C D S HL HK E F. unfold covariance64 in *. rewrite <- (two_length _ _ _ HL), <- (two_length _ _ _ HK). destruct (Nat.eqb_spec (length l) (length k)) as [L|]; [|discriminate E]. destruct (Nat.ltb_spec 1 (length l)) as [L2|]; [|discriminate E]. cbn [assertb] in *. eexists. split; [reflexivity|].
  match type of E with Ret ?x = _ => assert (ER : v = x) by (injection E; intros <-; reflexivity) end. clear E. subst v. match goal with |- fin ?y /\ val ?y = _ * val ?x => enough (SM : same (c * d) x y) by exact (SM F) end.
  destruct (minus_val (length l) 1 one S (proj1 one_R) (proj2 one_R) ltac:(lia)) as [_ V1]. apply same_div; [apply sgn_mul; assumption| |rewrite V1; apply not_0_INR; lia|reflexivity].
  apply same_sum; [apply sgn_mul; assumption|]. apply (two_map _ _ _ _ _ _ (two_combine c d l k l' k' HL HK)). intros p q [PQ1 PQ2]. pose proof (usize_val _ S ltac:(lia)) as NZ.
  apply same_mul; [exact C|exact D| |]; apply same_sub; try assumption; (apply same_div; [assumption|apply same_sum; assumption|exact NZ|reflexivity]).
Qed.
Print Assumptions covariance64_signs.
Theorem correlation64_signs c d neg l k l' k' sx sy r : sgn c -> sgn d -> small (length l) -> Forall2 (same c) l l' -> Forall2 (same d) k k' ->
  standard_deviation64 neg l = Ret sx -> 0 < val sx -> standard_deviation64 neg k = Ret sy -> 0 < val sy -> val (fmul sx sy) <> 0 -> correlation64 neg l k = Ret r -> fin r ->
  exists r', correlation64 neg l' k' = Ret r' /\ fin r' /\ val r' = c * d * val r.
Proof.
  intros C D S HL HK EX PX EY PY NP E F. unfold correlation64 in *. destruct (covariance64 neg l k) as [v| |] eqn:EC; try discriminate E. rewrite EX, EY in E. cbn [bind] in E. destruct (negb (feq sx zero || feq sy zero)); [|discriminate E]. cbn [assertb] in E. assert (ER : r = fdiv v (fmul sx sy)) by (injection E; intros <-; reflexivity). clear E. subst r.
  assert (LK : length l = length k) by (unfold covariance64 in EC; destruct (Nat.eqb_spec (length l) (length k)) as [L|]; [exact L|discriminate EC]).
  destruct (same_sd c neg l l' sx C HL S EX PX) as (sx' & -> & VX). destruct (same_sd d neg k k' sy D HK ltac:(rewrite <- LK; exact S) EY PY) as (sy' & -> & VY).
  destruct (fdiv_fin v (fmul sx sy) NP F) as (FV & _). destruct (covariance64_signs c d neg l k l' k' v C D S HL HK EC FV) as (v' & -> & FV' & VV). cbn [bind].
  assert (NZ : forall z, 0 < val z -> feq z zero = false). { intros z Z. pose proof (val_fin z Z) as FZ. destruct (feq z zero) eqn:K; [|reflexivity]. apply feq_R in K; [|exact FZ|reflexivity]. change (val zero) with 0 in K. lra. }
  rewrite !NZ by lra. cbn [orb negb assertb]. eexists. split; [reflexivity|].
  assert (FW : fin (fmul sx sy)) by (destruct (fmul sx sy) as [b|b| |b m e B]; try reflexivity; exfalso; apply NP; reflexivity).
  destruct (fmul_fin _ _ FW) as (FX & FY & VW & BW). assert (VW' : val (fmul sx' sy') = val (fmul sx sy)). { destruct (fmul_R sx' sy') as [_ W]; [apply val_fin; lra|apply val_fin; lra|rewrite VX, VY; exact BW|]. rewrite W, VX, VY. symmetry. exact VW. }
  assert (SM : same (c * d) (fdiv v (fmul sx sy)) (fdiv v' (fmul sx' sy'))) by (apply same_div; [apply sgn_mul; assumption|intros _; split; assumption|exact NP|exact VW']). exact (SM F).
Qed.
Print Assumptions correlation64_signs.
(** a sample and its reflection, and an exact covariance of each sign *)
Example covariance64_signs_case : match covariance64 false [one; two; lit 6 0] [two; two; lit 8 0], covariance64 false [lit (-1) 0; lit (-2) 0; lit (-6) 0] [two; two; lit 8 0] with Ret a, Ret b => (feq a (lit 9 0) && feq b (lit (-9) 0))%bool | _, _ => false end = true.
Proof. vm_compute. reflexivity. Qed.
