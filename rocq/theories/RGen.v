(** Improper integrals from antiderivatives. *)
From Coq Require Import Reals Lra.
From Coquelicot Require Import Coquelicot.
Open Scope R_scope.

Lemma igen (Fa Fb : (R -> Prop) -> Prop) {HFa : Filter Fa} {HFb : Filter Fb} (F f : R -> R) (D : R -> Prop) (la lb : R) :
  (forall x, D x -> is_derive F x (f x)) -> (forall x, D x -> continuous f x) ->
  filter_prod Fa Fb (fun ab => forall x, Rmin (fst ab) (snd ab) <= x <= Rmax (fst ab) (snd ab) -> D x) ->
  filterlim F Fa (locally la) -> filterlim F Fb (locally lb) ->
  is_RInt_gen f Fa Fb (lb - la).
Proof.
  intros HD HC HI La Lb P HP.
  assert (L : filterlim (fun ab : R * R => minus (F (snd ab)) (F (fst ab))) (filter_prod Fa Fb) (locally (minus lb la))).
  { apply (filterlim_comp_2 (F:=filter_prod Fa Fb) (G:=locally lb) (H:=locally (opp la)) (I:=locally (minus lb la)) (fun ab : R * R => F (snd ab)) (fun ab : R * R => opp (F (fst ab))) (fun u v : R => plus u v)).
    - apply (filterlim_comp _ _ _ (fun ab : R * R => snd ab) F (filter_prod Fa Fb) Fb (locally lb)); [apply filterlim_snd|exact Lb].
    - apply (filterlim_comp _ _ _ (fun ab : R * R => F (fst ab)) (fun z : R => opp z) (filter_prod Fa Fb) (locally la)); [|apply (filterlim_opp (K:=R_AbsRing) (V:=R_NormedModule))].
      apply (filterlim_comp _ _ _ (fun ab : R * R => fst ab) F (filter_prod Fa Fb) Fa (locally la)); [apply filterlim_fst|exact La].
    - apply (filterlim_plus (K:=R_AbsRing) (V:=R_NormedModule)). }
  specialize (L P HP). unfold filtermap in L. unfold filtermapi. generalize (filter_and _ _ HI L). apply filter_imp. intros (a, b) [H1 H2]. cbn [fst snd] in *.
  exists (minus (F b) (F a)). split; [|exact H2].
  apply (is_RInt_derive (V:=R_CompleteNormedModule) F f); intros x Hx; [apply HD, H1, Hx|apply HC, H1, Hx].
Qed.

(** over the whole line *)
Lemma igen_line (F f : R -> R) (la lb : R) : (forall x, is_derive F x (f x)) -> (forall x, continuous f x) ->
  is_lim F m_infty la -> is_lim F p_infty lb -> is_RInt_gen f (Rbar_locally m_infty) (Rbar_locally p_infty) (lb - la).
Proof.
  intros HD HC La Lb. apply (igen _ _ F f (fun _ => True)); [intros; apply HD|intros; apply HC| |exact La|exact Lb].
  apply Filter_prod with (fun _ => True) (fun _ => True); try apply filter_true. intros; exact I.
Qed.
(** over the positive half line, open at zero *)
Lemma igen_pos (F f : R -> R) (la lb : R) : (forall x, 0 < x -> is_derive F x (f x)) -> (forall x, 0 < x -> continuous f x) ->
  filterlim F (at_right 0) (locally la) -> is_lim F p_infty lb -> is_RInt_gen f (at_right 0) (Rbar_locally p_infty) (lb - la).
Proof.
  intros HD HC La Lb. apply (igen _ _ F f (fun x => 0 < x)); [exact HD|exact HC| |exact La|exact Lb].
  apply Filter_prod with (fun x => 0 < x) (fun x => 0 < x).
  - exists (mkposreal 1 Rlt_0_1). intros y _ Hy. exact Hy.
  - exists 0. intros; assumption.
  - intros a b Ha Hb x [Hx _]. cbn [fst snd] in Hx. unfold Rmin in Hx. destruct (Rle_dec a b); lra.
Qed.
(** from a point *)
Lemma igen_from (F f : R -> R) (a lb : R) : (forall x, a <= x -> is_derive F x (f x)) -> (forall x, a <= x -> continuous f x) ->
  is_lim F p_infty lb -> is_RInt_gen f (at_point a) (Rbar_locally p_infty) (lb - F a).
Proof.
  intros HD HC Lb. apply (igen _ _ F f (fun x => a <= x)); [exact HD|exact HC| | |exact Lb].
  - apply Filter_prod with (fun x => x = a) (fun x => a < x).
    + reflexivity.
    + exists a. intros; assumption.
    + intros u v Hu Hv x [Hx _]. cbn [fst snd] in Hx. subst u. unfold Rmin in Hx. destruct (Rle_dec a v); lra.
  - intros P [e He]. unfold filtermap, at_point. apply He. apply ball_center.
Qed.
(** improper integrals are unique *)
Lemma igen_unique (Fa Fb : (R -> Prop) -> Prop) {HFa : ProperFilter' Fa} {HFb : ProperFilter' Fb} (f : R -> R) (u v : R) :
  is_RInt_gen f Fa Fb u -> is_RInt_gen f Fa Fb v -> u = v.
Proof.
  intros A B. apply (is_RInt_gen_unique (V:=R_CompleteNormedModule)) in A. apply (is_RInt_gen_unique (V:=R_CompleteNormedModule)) in B.
  rewrite <- A, <- B. reflexivity.
Qed.
(** linear combinations and pointwise equality *)
Lemma igen_lin (Fa Fb : (R -> Prop) -> Prop) {HFa : Filter Fa} {HFb : Filter Fb} (f g : R -> R) (a b u v : R) :
  is_RInt_gen f Fa Fb u -> is_RInt_gen g Fa Fb v -> is_RInt_gen (fun x => a * f x + b * g x) Fa Fb (a * u + b * v).
Proof.
  intros A B. apply (is_RInt_gen_plus (V:=R_NormedModule) (fun x => a * f x) (fun x => b * g x)).
  - apply (is_RInt_gen_scal (V:=R_NormedModule) f a u A).
  - apply (is_RInt_gen_scal (V:=R_NormedModule) g b v B).
Qed.
Lemma igen_scal (Fa Fb : (R -> Prop) -> Prop) {HFa : Filter Fa} {HFb : Filter Fb} (f : R -> R) (a u : R) :
  is_RInt_gen f Fa Fb u -> is_RInt_gen (fun x => a * f x) Fa Fb (a * u).
Proof. intros A. apply (is_RInt_gen_scal (V:=R_NormedModule) f a u A). Qed.
Lemma igen_ext (Fa Fb : (R -> Prop) -> Prop) {HFa : Filter Fa} {HFb : Filter Fb} (f g : R -> R) (u : R) :
  (forall x, f x = g x) -> is_RInt_gen f Fa Fb u -> is_RInt_gen g Fa Fb u.
Proof. intros E. apply (is_RInt_gen_ext (V:=R_NormedModule)). apply Filter_prod with (fun _ => True) (fun _ => True); try apply filter_true. intros. apply E. Qed.
Lemma igen_ext_from (f g : R -> R) (a u : R) :
  (forall x, a < x -> f x = g x) -> is_RInt_gen f (at_point a) (Rbar_locally p_infty) u -> is_RInt_gen g (at_point a) (Rbar_locally p_infty) u.
Proof.
  intros E. apply (is_RInt_gen_ext (V:=R_NormedModule)). apply Filter_prod with (fun x => x = a) (fun x => a < x); [reflexivity|exists a; intros; assumption|].
  intros x y -> Hy z [Hz _]. cbn [fst snd] in Hz. apply E. unfold Rmin in Hz. destruct (Rle_dec a y); lra.
Qed.
(** affine substitution *)
Lemma igen_affine (Fa Fb Ga Gb : (R -> Prop) -> Prop) {HFa : Filter Fa} {HFb : Filter Fb} {HGa : Filter Ga} {HGb : Filter Gb} (f : R -> R) (u v e : R) :
  filterlim (fun y => u * y + v) Ga Fa -> filterlim (fun y => u * y + v) Gb Fb ->
  is_RInt_gen f Fa Fb e -> is_RInt_gen (fun y => u * f (u * y + v)) Ga Gb e.
Proof.
  intros A B H P HP. specialize (H P HP). unfold filtermapi in *. destruct H as [Q R HQ HR H]. apply Filter_prod with (fun y => Q (u * y + v)) (fun y => R (u * y + v)).
  - apply A, HQ.
  - apply B, HR.
  - intros x y Hx Hy. destruct (H _ _ Hx Hy) as [w [I W]]. exists w. split; [|exact W]. cbn [fst snd] in *. apply (is_RInt_comp_lin (V:=R_NormedModule) f u v x y w I).
Qed.
Lemma igen_ext_pos (f g : R -> R) (u : R) :
  (forall x, 0 < x -> f x = g x) -> is_RInt_gen f (at_right 0) (Rbar_locally p_infty) u -> is_RInt_gen g (at_right 0) (Rbar_locally p_infty) u.
Proof.
  intros E. apply (is_RInt_gen_ext (V:=R_NormedModule)). apply Filter_prod with (fun x => 0 < x) (fun x => 0 < x).
  - exists (mkposreal 1 Rlt_0_1). intros y _ Hy. exact Hy.
  - exists 0. intros; assumption.
  - intros x y Hx Hy z [Hz _]. cbn [fst snd] in Hz. apply E. unfold Rmin in Hz. destruct (Rle_dec x y); lra.
Qed.
Lemma igen_ext_to (f g : R -> R) (b u : R) : 0 < b ->
  (forall x, 0 < x -> f x = g x) -> is_RInt_gen f (at_right 0) (at_point b) u -> is_RInt_gen g (at_right 0) (at_point b) u.
Proof.
  intros Hb E. apply (is_RInt_gen_ext (V:=R_NormedModule)). apply Filter_prod with (fun x => 0 < x) (fun x => x = b).
  - exists (mkposreal 1 Rlt_0_1). intros y _ Hy. exact Hy.
  - reflexivity.
  - intros x y Hx -> z [Hz _]. cbn [fst snd] in Hz. apply E. unfold Rmin in Hz. destruct (Rle_dec x b); lra.
Qed.
