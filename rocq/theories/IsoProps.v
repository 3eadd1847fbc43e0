(** C85: country and market codes. *)
From Coq Require Import List String Ascii Bool Arith NArith PArith FMapPositive Lia.
From Verif Require Import IsoModel IsoTable.
Import ListNotations.
Local Open Scope string_scope.

(** A country constant of the library. *)
Definition country (c : iso3166) : Prop := exists name, In (name, c) countries.
Definition of_alpha_2 (s : string) : option iso3166 := from_alpha_2 arms countries s.

Definition iso_eqb (a b : iso3166) : bool := String.eqb (alpha_2 a) (alpha_2 b) && String.eqb (alpha_3 a) (alpha_3 b) && String.eqb (numeric a) (numeric b).
Lemma iso_eqb_spec : forall a b, iso_eqb a b = true -> a = b.
Proof. intros [a b c] [d e f] H. unfold iso_eqb in H. simpl in H. rewrite !andb_true_iff, !String.eqb_eq in H. destruct H as [[-> ->] ->]. reflexivity. Qed.
Lemma rows_found : forallb (fun e => match of_alpha_2 (alpha_2 (snd e)) with Some c => iso_eqb c (snd e) | None => false end) countries = true.
Proof. vm_compute. reflexivity. Qed.
Lemma arms_sound : forallb (fun a => match constant countries (snd a) with Some c => String.eqb (alpha_2 c) (fst a) | None => false end) arms = true.
Proof. vm_compute. reflexivity. Qed.

(** A string is accepted exactly when it is the two-letter code of a country, and gives that country. *)
Theorem alpha_2_lookup : forall s c, of_alpha_2 s = Some c <-> country c /\ alpha_2 c = s.
Proof.
  intros s c. split.
  - unfold of_alpha_2, from_alpha_2. destruct (find (fun a => String.eqb (fst a) s) arms) as [a|] eqn:F; [|discriminate]. apply find_some in F. destruct F as [I E]. apply String.eqb_eq in E.
    pose proof arms_sound as A. rewrite forallb_forall in A. specialize (A a I). intro K. rewrite K in A. apply String.eqb_eq in A. split; [|congruence].
    unfold constant in K. destruct (find (fun e => String.eqb (fst e) (snd a)) countries) as [[n c']|] eqn:G; [|discriminate]. simpl in K. injection K as ->. apply find_some in G. exists n. apply G.
  - intros [[n I] <-]. pose proof rows_found as A. rewrite forallb_forall in A. specialize (A _ I). simpl in A. destruct (of_alpha_2 (alpha_2 c)) as [c'|]; [|discriminate]. f_equal. apply iso_eqb_spec. exact A.
Qed.
Print Assumptions alpha_2_lookup.
Example alpha_2_lookup_case : of_alpha_2 "NZ" = Some (Iso3166 "NZ" "NZL" "554") /\ of_alpha_2 "nz" = None /\ of_alpha_2 "" = None.
Proof. vm_compute. repeat split. Qed.

(** No two countries share a code of any of the three kinds. *)
Fixpoint distinct (l : list string) : bool := match l with [] => true | x :: l' => negb (existsb (String.eqb x) l') && distinct l' end.
Lemma distinct_map : forall (f : iso3166 -> string) l, distinct (map (fun e => f (snd e)) l) = true -> forall (n m : string) a b, In (n, a) l -> In (m, b) l -> f a = f b -> a = b.
Proof.
  intros f. induction l as [|[k c] l IH]; intros H n m a b I J E; [destruct I|]. simpl in H. apply andb_true_iff in H. destruct H as [H1 H2]. apply negb_true_iff in H1.
  assert (N : forall n' x, In (n', x) l -> f x <> f c).
  { intros n' x K Q. assert (T : existsb (String.eqb (f c)) (map (fun e => f (snd e)) l) = true); [|congruence]. apply existsb_exists. exists (f x). split; [apply (in_map (fun e => f (snd e)) l (n', x) K)|]. apply String.eqb_eq. symmetry. exact Q. }
  destruct I as [I|I], J as [J|J].
  - congruence.
  - injection I as -> ->. exfalso. apply (N _ _ J). symmetry. exact E.
  - injection J as -> ->. exfalso. apply (N _ _ I). exact E.
  - apply (IH H2 n m a b); assumption.
Qed.
Lemma distinct_2 : distinct (map (fun e => alpha_2 (snd e)) countries) = true. Proof. vm_compute. reflexivity. Qed.
Lemma distinct_3 : distinct (map (fun e => alpha_3 (snd e)) countries) = true. Proof. vm_compute. reflexivity. Qed.
Lemma distinct_n : distinct (map (fun e => numeric (snd e)) countries) = true. Proof. vm_compute. reflexivity. Qed.
Theorem country_codes_unique : forall c d, country c -> country d -> alpha_2 c = alpha_2 d \/ alpha_3 c = alpha_3 d \/ numeric c = numeric d -> c = d.
Proof.
  intros c d [n I] [m J] [E|[E|E]]; [apply (distinct_map alpha_2 countries distinct_2 n m c d I J E)|apply (distinct_map alpha_3 countries distinct_3 n m c d I J E)|apply (distinct_map numeric countries distinct_n n m c d I J E)].
Qed.
Print Assumptions country_codes_unique.
Example country_codes_case : country (Iso3166 "FR" "FRA" "250").
Proof. exists "FRANCE". pose proof (find_some (fun e => String.eqb (fst e) "FRANCE") countries (x := ("FRANCE", Iso3166 "FR" "FRA" "250")) eq_refl) as [I _]. exact I. Qed.

(** Codes have the lengths and alphabets of ISO 3166-1. *)
Definition all_in (lo hi : N) (n : nat) (s : string) : bool := Nat.eqb (String.length s) n && forallb (fun c => N.leb lo (N_of_ascii c) && N.leb (N_of_ascii c) hi) (list_ascii_of_string s).
Theorem country_codes_wellformed : forall c, country c ->
  (String.length (alpha_2 c) = 2 /\ String.length (alpha_3 c) = 3 /\ String.length (numeric c) = 3)%nat /\
  (forall a, In a (list_ascii_of_string (alpha_2 c)) \/ In a (list_ascii_of_string (alpha_3 c)) -> (65 <= N_of_ascii a <= 90)%N) /\
  (forall a, In a (list_ascii_of_string (numeric c)) -> (48 <= N_of_ascii a <= 57)%N).
Proof.
  assert (W : forallb (fun e => all_in 65 90 2 (alpha_2 (snd e)) && all_in 65 90 3 (alpha_3 (snd e)) && all_in 48 57 3 (numeric (snd e))) countries = true) by (vm_compute; reflexivity).
  assert (S : forall lo hi n s, all_in lo hi n s = true -> String.length s = n /\ forall a, In a (list_ascii_of_string s) -> (lo <= N_of_ascii a <= hi)%N).
  { intros lo hi n s H. unfold all_in in H. apply andb_true_iff in H. destruct H as [H1 H2]. apply Nat.eqb_eq in H1. split; [exact H1|]. intros a I. rewrite forallb_forall in H2. specialize (H2 a I). apply andb_true_iff in H2. destruct H2 as [A B]. apply N.leb_le in A. apply N.leb_le in B. split; assumption. }
  intros c [n I]. rewrite forallb_forall in W. specialize (W _ I). cbn [snd] in W. apply andb_true_iff in W. destruct W as [W W3]. apply andb_true_iff in W. destruct W as [W1 W2].
  apply S in W1. apply S in W2. apply S in W3. destruct W1 as [A1 B1], W2 as [A2 B2], W3 as [A3 B3]. split; [tauto|]. split; [intros a [K|K]; auto|exact B3].
Qed.
Print Assumptions country_codes_wellformed.

(** ** Markets *)
Fixpoint key (s : string) : positive := match s with EmptyString => 1%positive | String (Ascii b0 b1 b2 b3 b4 b5 b6 b7) r =>
  let put (b : bool) p := if b then xI p else xO p in put b0 (put b1 (put b2 (put b3 (put b4 (put b5 (put b6 (put b7 (key r)))))))) end.
Definition index_of (l : list venue) : PositiveMap.t venue := fold_right (fun v m => PositiveMap.add (key (mic v)) v m) (PositiveMap.empty _) l.
Lemma index_sound : forall l k v, PositiveMap.find k (index_of l) = Some v -> In v l.
Proof.
  induction l as [|w l IH]; intros k v H; simpl in H; [rewrite PositiveMap.gempty in H; discriminate|].
  destruct (Pos.eq_dec k (key (mic w))) as [->|N]; [rewrite PositiveMap.gss in H; injection H as ->; left; reflexivity|].
  rewrite PositiveMap.gso in H by exact N. right. apply (IH k). exact H.
Qed.
Definition operator_ok (m : PositiveMap.t venue) (v : venue) : bool :=
  match PositiveMap.find (key (operating_mic v)) m with
  | Some w => String.eqb (mic w) (operating_mic v) &&
      match flag v with Operating => String.eqb (mic v) (operating_mic v) | Segment => negb (String.eqb (mic v) (operating_mic v)) end &&
      match status v, flag w with Expired, _ => true | _, Operating => true | _, Segment => false end
  | None => false
  end.
Lemma all_operators_ok : (let m := index_of venues in forallb (operator_ok m) venues) = true.
Proof. vm_compute. reflexivity. Qed.
(** Every market names an operating market among the constants: itself exactly when
    it is flagged as operating; unless the market has expired, what it names is
    flagged as operating. *)
Theorem venue_operator : forall v, In v venues -> exists w, In w venues /\ mic w = operating_mic v /\
  (flag v = Operating <-> mic v = operating_mic v) /\ (status v <> Expired -> flag w = Operating).
Proof.
  intros v I. pose proof all_operators_ok as A. cbv zeta in A. rewrite forallb_forall in A. specialize (A v I). unfold operator_ok in A.
  destruct (PositiveMap.find (key (operating_mic v)) (index_of venues)) as [w|] eqn:F; [|discriminate]. apply index_sound in F. exists w. split; [exact F|].
  apply andb_true_iff in A. destruct A as [A A3]. apply andb_true_iff in A. destruct A as [A1 A2]. apply String.eqb_eq in A1. split; [exact A1|]. split.
  - destruct (flag v); [apply String.eqb_eq in A2; tauto|]. apply negb_true_iff in A2. apply String.eqb_neq in A2. split; [discriminate|tauto].
  - intro N. destruct (status v), (flag w); congruence.
Qed.
Print Assumptions venue_operator.
Lemma find_venue : forall n v, find (fun w => String.eqb (mic w) n) venues = Some v -> In v venues.
Proof. intros n v H. apply find_some in H. apply H. Qed.
Example venue_operator_case : In (Venue "XNYS" "XNYS" "US" Operating Active) venues.
Proof. apply (find_venue "XNYS"). vm_compute. reflexivity. Qed.
(** Some expired segments name another segment. *)
Theorem venue_operator_flag_refuted : exists v w, In v venues /\ In w venues /\ mic w = operating_mic v /\ flag w = Segment.
Proof.
  exists (Venue "XEAS" "XEQT" "BE" Segment Expired), (Venue "XEQT" "XBER" "DE" Segment Active).
  split; [apply (find_venue "XEAS"); vm_compute; reflexivity|]. split; [apply (find_venue "XEQT"); vm_compute; reflexivity|]. split; reflexivity.
Qed.
Print Assumptions venue_operator_flag_refuted.

(** The country of every market resolves, but for the three with the code ZZ. *)
Definition resolves (v : venue) : bool := match of_alpha_2 (country_code v) with Some _ => true | None => String.eqb (country_code v) "ZZ" end.
Lemma all_resolve : forallb resolves venues = true.
Proof. vm_compute. reflexivity. Qed.
Theorem venue_country : forall v, In v venues -> country_code v <> "ZZ" -> exists c, country c /\ of_alpha_2 (country_code v) = Some c /\ alpha_2 c = country_code v.
Proof.
  intros v I N. pose proof all_resolve as A. rewrite forallb_forall in A. specialize (A v I). unfold resolves in A. destruct (of_alpha_2 (country_code v)) as [c|] eqn:E; [|apply String.eqb_eq in A; contradiction].
  exists c. apply alpha_2_lookup in E as [C E2]. split; [exact C|]. split; [reflexivity|exact E2].
Qed.
Print Assumptions venue_country.
Theorem venue_country_refuted : exists v, In v venues /\ of_alpha_2 (country_code v) = None.
Proof.
  assert (H : exists v, find (fun w => String.eqb (country_code w) "ZZ") venues = Some v /\ of_alpha_2 (country_code v) = None) by (eexists; vm_compute; split; reflexivity).
  destruct H as (v & F & N). exists v. split; [apply find_some in F; apply F|exact N].
Qed.
Print Assumptions venue_country_refuted.
