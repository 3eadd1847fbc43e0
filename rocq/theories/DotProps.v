(** C87: the DOT text of a graph says exactly what the graph is. *)
From Coq Require Import Reals List String Ascii Bool Arith Decimal DecimalString DecimalNat Lia.
From Verif Require Import Res AdModel DotModel.
Import ListNotations.
Local Open Scope string_scope.

(** ** A reader of the text *)
Inductive item := Input (i : nat) | Op (i : nat) | Edge (parent child slot : nat).
(** cut the text at every newline *)
Fixpoint lines (s cur : string) : list string :=
  match s with
  | EmptyString => match cur with EmptyString => [] | _ => [cur] end
  | String c s' => if Ascii.eqb c "010" then cur :: lines s' "" else lines s' (cur ++ String c "")
  end.
Definition is_digit (c : ascii) : bool := (48 <=? nat_of_ascii c)%nat && (nat_of_ascii c <=? 57)%nat.
Fixpoint digits (s : string) : string * string :=
  match s with
  | String c s' => if is_digit c then let (a, b) := digits s' in (String c a, b) else ("", s)
  | EmptyString => ("", "")
  end.
Definition number (s : string) : option (nat * string) :=
  let (a, b) := digits s in match NilZero.uint_of_string a with Some u => Some (Nat.of_uint u, b) | None => None end.
(** drop a fixed prefix *)
Fixpoint strip (p s : string) : option string :=
  match p, s with
  | EmptyString, _ => Some s
  | String c p', String d s' => if Ascii.eqb c d then strip p' s' else None
  | _, _ => None
  end.
Definition read (l : string) : option item :=
  match strip tab l with None => None | Some l1 =>
  match number l1 with None => None | Some (a, l2) =>
  match strip " -> " l2 with
  | Some l3 => match number l3 with None => None | Some (b, l4) => match strip (" [label=" ++ quote ++ "∂_") l4 with None => None | Some l5 => match number l5 with None => None | Some (k, _) => Some (Edge a b k) end end end
  | None => match strip (" [label=" ++ quote ++ "Input") l2 with Some _ => Some (Input a) | None => match strip (" [label=" ++ quote ++ "Op") l2 with Some _ => Some (Op a) | None => None end end
  end end end.
Fixpoint filter_some {A} (l : list (option A)) : list A := match l with [] => [] | Some a :: l' => a :: filter_some l' | None :: l' => filter_some l' end.
Definition read_dot (s : string) : list item := filter_some (map read (lines s "")).

(** ** What the text should say *)
Definition item_of_vertex (vars : list var) (i : nat) : item := if in_dec Nat.eq_dec i (map index vars) then Input i else Op i.
Definition edges_of (i : nat) (v : vertex) : list item := (if Nat.eq_dec (par0 v) i then [] else [Edge (par0 v) i 0]) ++ (if Nat.eq_dec (par1 v) i then [] else [Edge (par1 v) i 1]).
Fixpoint all_edges (i : nat) (g : tape) : list item := match g with [] => [] | v :: g' => edges_of i v ++ all_edges (S i) g' end.

(** ** Strings *)
Lemma app_s_assoc : forall a b c : string, (a ++ b) ++ c = a ++ (b ++ c).
Proof. induction a as [|x a IH]; intros b c; simpl; [reflexivity|rewrite IH; reflexivity]. Qed.
Lemma app_s_nil : forall a : string, a ++ "" = a.
Proof. induction a as [|x a IH]; simpl; [reflexivity|rewrite IH; reflexivity]. Qed.
Fixpoint no_nl (s : string) : bool := match s with EmptyString => true | String c s' => negb (Ascii.eqb c "010") && no_nl s' end.
Lemma no_nl_app : forall a b, no_nl (a ++ b) = no_nl a && no_nl b.
Proof. induction a as [|x a IH]; intro b; simpl; [reflexivity|rewrite IH, andb_assoc; reflexivity]. Qed.
Lemma lines_line : forall l cur r, no_nl l = true -> lines (l ++ nl ++ r) cur = (cur ++ l) :: lines r "".
Proof.
  induction l as [|c l IH]; intros cur r H; simpl; [rewrite app_s_nil; reflexivity|]. simpl in H. apply andb_true_iff in H. destruct H as [H1 H2]. apply negb_true_iff in H1. rewrite H1.
  change (String "010" r) with (nl ++ r). rewrite IH by exact H2. rewrite app_s_assoc. reflexivity.
Qed.
Fixpoint all_digits (s : string) : bool := match s with EmptyString => true | String c s' => is_digit c && all_digits s' end.
Lemma digits_app : forall a c r, all_digits a = true -> is_digit c = false -> digits (a ++ String c r) = (a, String c r).
Proof. induction a as [|x a IH]; intros c r H K; simpl; [rewrite K; reflexivity|]. simpl in H. apply andb_true_iff in H. destruct H as [H1 H2]. rewrite H1, (IH c r H2 K). reflexivity. Qed.
Lemma uint_digits : forall u, all_digits (NilEmpty.string_of_uint u) = true.
Proof. induction u; simpl; try reflexivity; exact IHu. Qed.
Lemma show_digits : forall n, all_digits (show n) = true.
Proof. intro n. unfold show, NilZero.string_of_uint. destruct (Nat.to_uint n) eqn:E; try reflexivity; apply (uint_digits (_ u)) || (rewrite <- E; apply uint_digits). Qed.
Lemma to_uint_not_nil : forall n, Nat.to_uint n <> Nil.
Proof. intros n E. pose proof (DecimalNat.Unsigned.of_to n) as H. pose proof (DecimalNat.Unsigned.to_of Nil) as K. rewrite E in H. simpl in H, K. subst n. discriminate E. Qed.
Lemma number_show : forall n c r, is_digit c = false -> number (show n ++ String c r) = Some (n, String c r).
Proof.
  intros n c r H. unfold number. rewrite (digits_app _ _ _ (show_digits n) H). unfold show. rewrite NilZero.usu by apply to_uint_not_nil. rewrite DecimalNat.Unsigned.of_to. reflexivity.
Qed.
Definition head_not_digit (r : string) : bool := match r with String c _ => negb (is_digit c) | EmptyString => false end.
Lemma number_show_app : forall n r, head_not_digit r = true -> number (show n ++ r) = Some (n, r).
Proof. intros n [|c r] H; [discriminate|]. apply number_show. simpl in H. apply negb_true_iff. exact H. Qed.
Lemma digits_no_nl : forall s, all_digits s = true -> no_nl s = true.
Proof.
  induction s as [|c s IH]; simpl; [reflexivity|]. intro H. apply andb_true_iff in H. destruct H as [H1 H2]. rewrite (IH H2), andb_true_r. destruct (Ascii.eqb c "010") eqn:E; [|reflexivity]. apply Ascii.eqb_eq in E. subst c. discriminate H1.
Qed.
Lemma show_no_nl : forall n, no_nl (show n) = true.
Proof. intro n. apply digits_no_nl, show_digits. Qed.
Lemma strip_app : forall p s, strip p (p ++ s) = Some s.
Proof. induction p as [|c p IH]; intro s; simpl; [reflexivity|]. rewrite Ascii.eqb_refl. apply IH. Qed.
Lemma filter_some_app : forall A (a b : list (option A)), filter_some (a ++ b) = (filter_some a ++ filter_some b)%list.
Proof. intros A a b. induction a as [|[x|] a IH]; simpl; [reflexivity|rewrite IH; reflexivity|exact IH]. Qed.

Section Reader.
Variables show2 show2_debug : R -> string.
(** formatted numbers stay on one line *)
Hypothesis one_line : forall x, no_nl (show2 x) = true /\ no_nl (show2_debug x) = true.

Lemma read_cons : forall l r it, no_nl l = true -> read l = it -> read_dot (l ++ nl ++ r) = (filter_some [it] ++ read_dot r)%list.
Proof. intros l r it H <-. unfold read_dot. rewrite lines_line by exact H. cbn [map]. simpl ("" ++ l). cbn [filter_some]. destruct (read l); reflexivity. Qed.
Lemma existsb_in : forall vars i, existsb (fun v => Nat.eqb (index v) i) vars = true <-> In i (map index vars).
Proof. intros vars i. rewrite existsb_exists, in_map_iff. split; intros (v & A & B); exists v; [apply Nat.eqb_eq in B; tauto|split; [exact B|apply Nat.eqb_eq; exact A]]. Qed.
Lemma node_line_ok : forall vars i, exists l, node_line show2 vars i = Ret (l ++ nl) /\ no_nl l = true /\ read l = Some (item_of_vertex vars i).
Proof.
  intros vars i. unfold node_line, item_of_vertex. destruct (existsb (fun v => Nat.eqb (index v) i) vars) eqn:E.
  - pose proof (proj1 (existsb_in vars i) E) as I. destruct (in_dec Nat.eq_dec i (map index vars)) as [_|N]; [|contradiction].
    destruct (find (fun v => Nat.eqb (index v) i) vars) as [v|] eqn:F.
    + cbn [unwrap bind]. eexists. split; [rewrite <- !app_s_assoc; reflexivity|]. split.
      * rewrite !no_nl_app, !show_no_nl, (proj1 (one_line (value v))). reflexivity.
      * rewrite !app_s_assoc. unfold read. rewrite strip_app. rewrite number_show_app by reflexivity. reflexivity.
    + exfalso. apply in_map_iff in I. destruct I as (v & A & B). pose proof (find_none _ _ F v B) as K. simpl in K. apply Nat.eqb_neq in K. contradiction.
  - destruct (in_dec Nat.eq_dec i (map index vars)) as [I|_]; [apply existsb_in in I; congruence|]. eexists. split; [rewrite <- !app_s_assoc; reflexivity|]. split.
    + rewrite !no_nl_app, !show_no_nl. reflexivity.
    + rewrite !app_s_assoc. unfold read. rewrite strip_app, number_show_app by reflexivity. reflexivity.
Qed.
Lemma nodes_ok : forall vars g i dot, exists t, node_lines show2 vars i g dot = Ret (dot ++ t) /\ forall r, read_dot (t ++ r) = (map (item_of_vertex vars) (seq i (List.length g)) ++ read_dot r)%list.
Proof.
  intros vars. induction g as [|v g IH]; intros i dot; simpl; [exists ""; rewrite app_s_nil; split; [reflexivity|intro r; reflexivity]|].
  destruct (node_line_ok vars i) as (l & A & B & C). rewrite A. cbn [bind]. destruct (IH (S i) (dot ++ l ++ nl)) as (t & D & E). exists ((l ++ nl) ++ t). rewrite D. split; [rewrite !app_s_assoc; reflexivity|].
  intro r. rewrite !app_s_assoc. rewrite (read_cons l (t ++ r) _ B C), E. reflexivity.
Qed.
Lemma edge_ok : forall i k p x r, read_dot (edge_line show2_debug i k p x ++ r) = ((if Nat.eq_dec p i then [] else [Edge p i k]) ++ read_dot r)%list.
Proof.
  intros i k p x r. unfold edge_line. destruct (Nat.eqb_spec p i) as [->|N].
  - destruct (Nat.eq_dec i i); [reflexivity|contradiction].
  - destruct (Nat.eq_dec p i); [contradiction|].
    assert (G : exists l, tab ++ show p ++ " -> " ++ show i ++ " [label=" ++ quote ++ "∂_" ++ show k ++ ": " ++ show2_debug x ++ quote ++ "];" ++ nl = l ++ nl /\ no_nl l = true /\ read l = Some (Edge p i k)).
    { eexists. split; [rewrite <- !app_s_assoc; reflexivity|]. split.
      - rewrite !no_nl_app, !show_no_nl, (proj2 (one_line x)). reflexivity.
      - rewrite !app_s_assoc. unfold read. rewrite strip_app, number_show_app by reflexivity.
        match goal with |- context [strip " -> " ?s] => let t := constr:(show i ++ " [label=" ++ quote ++ "∂_" ++ show k ++ ": " ++ show2_debug x ++ quote ++ "];") in change s with (" -> " ++ t) end.
        rewrite strip_app, number_show_app by reflexivity.
        match goal with |- context [strip (" [label=" ++ quote ++ "∂_") ?s] => let t := constr:(show k ++ ": " ++ show2_debug x ++ quote ++ "];") in change s with ((" [label=" ++ quote ++ "∂_") ++ t) end.
        rewrite strip_app, number_show_app by reflexivity. reflexivity. }
    destruct G as (l & -> & B & C). rewrite app_s_assoc, (read_cons l r _ B C). reflexivity.
Qed.
Lemma edges_ok : forall g i dot, exists t, edge_lines show2_debug i g dot = dot ++ t /\ forall r, read_dot (t ++ r) = (all_edges i g ++ read_dot r)%list.
Proof.
  induction g as [|v g IH]; intros i dot; simpl; [exists ""; rewrite app_s_nil; split; [reflexivity|intro r; reflexivity]|].
  destruct (IH (S i) ((dot ++ edge_line show2_debug i 0 (par0 v) (part0 v)) ++ edge_line show2_debug i 1 (par1 v) (part1 v))) as (t & A & B). rewrite A.
  exists (edge_line show2_debug i 0 (par0 v) (part0 v) ++ edge_line show2_debug i 1 (par1 v) (part1 v) ++ t). split; [rewrite !app_s_assoc; reflexivity|].
  intro r. rewrite !app_s_assoc, !edge_ok, B. unfold edges_of. rewrite <- !app_assoc. reflexivity.
Qed.
(** The export never panics, whatever variables are listed, and its text, read line by
    line, lists every vertex once, as an input exactly when it is a listed variable,
    then every edge from a parent to a different child, once per slot. *)
Theorem dot_text : forall g vars, exists s, graphviz show2 show2_debug g vars = Ret s /\ read_dot s = (map (item_of_vertex vars) (seq 0 (List.length g)) ++ all_edges 0 g)%list.
Proof.
  intros g vars. unfold graphviz. destruct (nodes_ok vars g 0 header) as (t & A & B). rewrite A. cbn [bind]. destruct (edges_ok g 0 (header ++ t)) as (u & C & D). rewrite C. eexists. split; [reflexivity|].
  rewrite !app_s_assoc. assert (H : forall r, read_dot (header ++ r) = read_dot r) by (intro r; reflexivity). rewrite H, B, D. 
  replace (read_dot ("}" ++ nl)) with (@nil item) by (vm_compute; reflexivity). rewrite app_nil_r. reflexivity.
Qed.
(** Graphs with the same text have the same vertices, inputs and edges. *)
Theorem dot_text_faithful : forall g h vs ws s, graphviz show2 show2_debug g vs = Ret s -> graphviz show2 show2_debug h ws = Ret s ->
  List.length g = List.length h /\ all_edges 0 g = all_edges 0 h /\ forall i, (i < List.length g)%nat -> (In i (map index vs) <-> In i (map index ws)).
Proof.
  intros g h vs ws s A B. destruct (dot_text g vs) as (s1 & A1 & R1). destruct (dot_text h ws) as (s2 & B1 & R2). rewrite A in A1. injection A1 as <-. rewrite B in B1. injection B1 as <-. rewrite R1 in R2.
  set (isn := fun it => match it with Edge _ _ _ => false | _ => true end).
  assert (E0 : forall vars n k, filter isn (map (item_of_vertex vars) (seq k n)) = map (item_of_vertex vars) (seq k n)).
  { intros vars n. induction n as [|n IH]; intro k; [reflexivity|]. cbn [seq map filter]. replace (isn (item_of_vertex vars k)) with true by (unfold item_of_vertex; destruct (in_dec _ _ _); reflexivity). rewrite IH. reflexivity. }
  assert (E1 : forall l k, filter isn (all_edges k l) = []).
  { induction l as [|v l IH]; intro k; [reflexivity|]. simpl. rewrite filter_app, IH. unfold edges_of. destruct (Nat.eq_dec (par0 v) k), (Nat.eq_dec (par1 v) k); reflexivity. }
  assert (N : map (item_of_vertex vs) (seq 0 (List.length g)) = map (item_of_vertex ws) (seq 0 (List.length h))).
  { apply (f_equal (filter isn)) in R2. rewrite !filter_app, !E0, !E1, !app_nil_r in R2. exact R2. }
  assert (L : List.length g = List.length h) by (apply (f_equal (@List.length item)) in N; rewrite !map_length, !seq_length in N; exact N).
  split; [exact L|]. split; [rewrite N in R2; apply app_inv_head in R2; exact R2|].
  intros i Hi. rewrite <- L in N. apply (f_equal (fun l => nth_error l i)) in N. rewrite !nth_error_map in N. rewrite (nth_error_nth' _ 0%nat) in N by (rewrite seq_length; exact Hi). rewrite seq_nth in N by exact Hi. simpl in N. injection N as N.
  unfold item_of_vertex in N. destruct (in_dec Nat.eq_dec i (map index vs)), (in_dec Nat.eq_dec i (map index ws)); try tauto; discriminate.
Qed.
End Reader.
Print Assumptions dot_text.
Print Assumptions dot_text_faithful.
(** An edge is drawn exactly for a parent that is not the vertex itself. *)
Theorem dot_edges : forall g p i k, In (Edge p i k) (all_edges 0 g) <-> exists v, nth_error g i = Some v /\ p <> i /\ ((k = 0%nat /\ p = par0 v) \/ (k = 1%nat /\ p = par1 v)).
Proof.
  assert (H : forall g o p i k, In (Edge p i k) (all_edges o g) <-> exists v j, i = (o + j)%nat /\ nth_error g j = Some v /\ p <> i /\ ((k = 0%nat /\ p = par0 v) \/ (k = 1%nat /\ p = par1 v))).
  { induction g as [|v g IH]; intros o p i k; simpl; [split; [tauto|intros (v & j & _ & H & _); destruct j; discriminate]|].
    rewrite in_app_iff, IH. split.
    - intros [H|(w & j & -> & H)]; [|exists w, (S j); split; [lia|exact H]]. unfold edges_of in H. apply in_app_iff in H. exists v, 0%nat.
      destruct H as [H|H]; [destruct (Nat.eq_dec (par0 v) o) as [|N]|destruct (Nat.eq_dec (par1 v) o) as [|N]]; try destruct H; try (destruct H; fail); try contradiction; injection H as <- <- <-; (split; [lia|]); (split; [reflexivity|]); (split; [exact N|tauto]).
    - intros (w & j & -> & H & N & K). destruct j as [|j]; [left|right; exists w, j; split; [lia|tauto]]. simpl in H. injection H as ->. rewrite Nat.add_0_r in *. unfold edges_of. apply in_app_iff.
      destruct K as [[-> ->]|[-> ->]]; [left; destruct (Nat.eq_dec (par0 w) o)|right; destruct (Nat.eq_dec (par1 w) o)]; try contradiction; left; reflexivity. }
  intros g p i k. rewrite H. split.
  - intros (v & j & -> & E). exists v. exact E.
  - intros (v & E). exists v, i. split; [reflexivity|exact E].
Qed.
Print Assumptions dot_edges.
Example dot_case : let '(g1, x) := graph_var [] 2 in let '(g2, y) := graph_var g1 3 in let '(g3, z) := mul_vv g2 x y in
  map (item_of_vertex [x; y]) (seq 0 3) = [Input 0; Input 1; Op 2] /\ all_edges 0 g3 = [Edge 0 2 0; Edge 1 2 1].
Proof. split; reflexivity. Qed.
Example one_line_met : forall x : R, no_nl ((fun _ => "0.00") x) = true /\ no_nl ((fun _ => "0.00") x) = true.
Proof. intro x. split; reflexivity. Qed.
