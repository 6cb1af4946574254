(** C50: the name of the shape of a line. *)
From Verif Require Import Base BaseFacts Graph SpecGraph GraphFacts GraphComponents Dimension Shape SpecShape ShapeFacts LineFacts.
Open Scope list_scope.

Section C50.
  Context {A W : Type} `{EqDec A}.
  Variable g : graph A W.
  Hypothesis Wf : wf_graph g.

  (** [NodalLine(graph=g, degree_count=_create_degree_count(g)).shape_name] *)
  Notation shape := (shape_name (create_degree_count g)).
  Definition two_ends : Prop := exists u v, u <> v /\ In u (g_nodes g) /\ In v (g_nodes g) /\ degree g u = 1%nat /\ degree g v = 1%nat /\
    forall x, In x (g_nodes g) -> x <> u -> x <> v -> degree g x = 2%nat.
  Definition all_two : Prop := forall x, In x (g_nodes g) -> degree g x = 2%nat.

  (** The degree count: how many nodes have degree [k], for the degrees other than 2 that occur. *)
  Theorem C50_degree_count k n : In (k, n) (create_degree_count g) <->
    k <> 2%nat /\ (1 <= n)%nat /\ n = length (filter (fun x => Nat.eqb (degree g x) k) (g_nodes g)).
  Proof. destruct (degree_count_spec g) as (_ & S). rewrite S. split; intros (a & b & c); auto. Qed.

  Theorem C50_shape_name : (shape = ClosedLoop <-> all_two) /\ (shape = OpenLine <-> two_ends) /\ (shape = Unknown <-> ~ all_two /\ ~ two_ends).
  Proof. assert (X1 : shape = ClosedLoop <-> all_two) by (rewrite name_closed; apply degrees_closed).
    assert (X2 : shape = OpenLine <-> two_ends) by (rewrite name_open; apply degrees_open; apply Wf).
    split; auto. split; auto. rewrite <- X1, <- X2. destruct shape; split; try discriminate; try tauto. intros _; split; discriminate. Qed.

  (** The degree of a node is the number of nodes joined to it (if no node is joined to itself). *)
  Theorem C50_degree x (nb : list A) : loopless g -> NoDup nb -> (forall y, In y nb <-> has_edge g x y) -> degree g x = length nb.
  Proof. intros. apply degree_exact; auto. Qed.

  (** The number of nodes with an odd degree is even: a line does not have exactly one end. *)
  Theorem C50_odd_nodes : Nat.even (length (odd_nodes g)) = true.
  Proof. unfold odd_nodes. rewrite odd_count, handshake by exact Wf. apply Nat.even_spec. exists (length (g_edges g)). auto. Qed.

  (** A closed loop has as many edges as nodes, an open line one less. *)
  Theorem C50_edge_counts : (shape = ClosedLoop -> length (g_edges g) = length (g_nodes g)) /\ (shape = OpenLine -> S (length (g_edges g)) = length (g_nodes g)).
  Proof. destruct C50_shape_name as (X1 & X2 & _). split; intros X.
    - apply closed_edges; auto. apply X1; auto.
    - apply X2 in X as (u & v & Ne & Iu & Iv & Du & Dv & F). eapply open_edges; eauto. Qed.

  (** A connected graph is named an open line exactly if its nodes can be arranged in a row
      such that exactly the nodes next to each other are joined ... *)
  Theorem C50_open_line_is_line : (loopless g /\ connected g /\ shape = OpenLine) <-> exists p, is_line g p.
  Proof. destruct C50_shape_name as (_ & X2 & _). split.
    - intros (Lo & Co & X). apply X2 in X as (u & v & Ne & Iu & Iv & Du & Dv & F). exact (open_is_line g Wf Lo Co u v Ne Iu Iv Du Dv F).
    - intros (p & L). destruct (line_degrees g Wf p L) as (Co & X). split; [eapply line_loopless; eauto|]. split; auto. apply X2. exact X. Qed.
  (** ... and a closed loop exactly if they can be arranged in a ring of at least three. *)
  Theorem C50_closed_loop_is_ring : (g_nodes g <> [] /\ loopless g /\ connected g /\ shape = ClosedLoop) <-> exists p, is_ring g p.
  Proof. destruct C50_shape_name as (X1 & _). split.
    - intros (Ne & Lo & Co & X). destruct (g_nodes g) as [|x l] eqn:En; [congruence|]. eapply (closed_is_ring g Wf Lo Co x); [rewrite En; left; auto|]. apply X1. auto.
    - intros (p & L). destruct (ring_degrees g Wf p L) as (Co & Ne & D). split; auto. split; [eapply ring_loopless; eauto|]. split; auto. apply X1; auto. Qed.
End C50.

(** The name does not depend on the order of the nodes of a graph or on its attributes. *)
Theorem C50_order_irrelevant {A W W'} `{EqDec A} (g : graph A W) (h : graph A W') : wf_graph g -> wf_graph h ->
  (forall x, In x (g_nodes g) <-> In x (g_nodes h)) -> (forall x, degree g x = degree h x) ->
  shape_name (create_degree_count g) = shape_name (create_degree_count h).
Proof. intros Wg Wh N D. destruct (C50_shape_name g Wg) as (A1 & A2 & A3), (C50_shape_name h Wh) as (B1 & B2 & B3).
  assert (E1 : all_two g <-> all_two h) by (unfold all_two; split; intros X x Hx; [rewrite <- D|rewrite D]; apply X; apply N; auto).
  assert (E2 : two_ends g <-> two_ends h).
  { unfold two_ends. split; intros (u & v & Ne & Iu & Iv & Du & Dv & F); exists u, v; [rewrite <- !D, <- !N|rewrite !D, !N]; (do 5 (split; auto)); intros x Hx; [rewrite <- D|rewrite D]; apply F; apply N; auto. }
  rewrite E1 in *. rewrite E2 in *. destruct (shape_name (create_degree_count g)) eqn:Eg; symmetry; [apply B1, A1|apply B2, A2|apply B3, A3]; auto. Qed.

Ltac edges := repeat match goal with I : _ \/ _ |- _ => destruct I | I : False |- _ => destruct I | I : _ = _ |- _ => first [discriminate I|injection I; clear I; intros; subst] end.

(** Nothing else is said by the name: graphs that fall apart are named too, as is the empty graph. *)
Definition triangles : graph nat unit := mk_graph [0; 1; 2; 3; 4; 5]%nat [(0, 1, tt); (1, 2, tt); (2, 0, tt); (3, 4, tt); (4, 5, tt); (5, 3, tt)]%nat.
Definition line_and_triangle : graph nat unit := mk_graph [0; 1; 2; 3; 4]%nat [(0, 1, tt); (1, 2, tt); (2, 0, tt); (3, 4, tt)]%nat.
Theorem C50_disconnected_refuted :
  shape_name (create_degree_count triangles) = ClosedLoop /\ ~ (exists p, is_ring triangles p) /\
  shape_name (create_degree_count line_and_triangle) = OpenLine /\ ~ (exists p, is_line line_and_triangle p) /\
  shape_name (create_degree_count (mk_graph (W := unit) (@nil nat) [])) = ClosedLoop.
Proof.
  assert (T : wf_graph triangles). { split; [repeat constructor; cbn; intuition congruence| |repeat constructor; cbn; auto]. cbn. intros u v w I. edges; cbn; auto 10. }
  assert (L : wf_graph line_and_triangle). { split; [repeat constructor; cbn; intuition congruence| |repeat constructor; cbn; auto]. cbn. intros u v w I. edges; cbn; auto 10. }
  split; [reflexivity|]. split.
  { intros X. apply (C50_closed_loop_is_ring _ T) in X as (_ & _ & Co & _). specialize (Co 0 3 ltac:(cbn; auto) ltac:(cbn; auto))%nat.
    apply (linked_closed (R := has_edge triangles) (fun x => x < 3)%nat) in Co; [lia| |lia]. intros a b Ha (w & I). cbn in I. edges; try lia. }
  split; [reflexivity|]. split.
  { intros X. apply (C50_open_line_is_line _ L) in X as (_ & Co & _). specialize (Co 0 3 ltac:(cbn; auto) ltac:(cbn; auto))%nat.
    apply (linked_closed (R := has_edge line_and_triangle) (fun x => x < 3)%nat) in Co; [lia| |lia]. intros a b Ha (w & I). cbn in I. edges; try lia. }
  reflexivity. Qed.

(** A line 1 - 0 - 2 - 3, a square, and a star. *)
Theorem C50_hypotheses_met :
  let line := mk_graph [0; 1; 2; 3]%nat [(1, 0, tt); (0, 2, tt); (2, 3, tt)]%nat in
  let square := mk_graph [0; 1; 2; 3]%nat [(1, 0, tt); (1, 2, tt); (2, 3, tt); (0, 3, tt)]%nat in
  let star := mk_graph [0; 1; 2; 3]%nat [(1, 0, tt); (0, 2, tt); (3, 0, tt)]%nat in
  (wf_graph line /\ is_line line [1; 0; 2; 3]%nat /\ shape_name (create_degree_count line) = OpenLine) /\
  (wf_graph square /\ is_ring square [0; 1; 2; 3]%nat /\ shape_name (create_degree_count square) = ClosedLoop) /\
  (wf_graph star /\ create_degree_count star = [(3, 1); (1, 3)]%nat /\ shape_name (create_degree_count star) = Unknown).
Proof.
  assert (Nx : forall (a b c d u v : nat), next_in [a; b; c; d] u v <-> In (u, v) [(a, b); (b, a); (b, c); (c, b); (c, d); (d, c)]).
  { intros. split.
    - intros ([|? [|? [|? [|? [|? ?]]]]] & l2 & [E|E]); cbn in E; try discriminate; injection E; intros; subst; cbn; auto 10.
    - intros [X|[X|[X|[X|[X|[X|[]]]]]]]; injection X as <- <-; [exists [], [c; d]|exists [], [c; d]|exists [a], [d]|exists [a], [d]|exists [a; b], []|exists [a; b], []]; auto. }
  assert (En : forall (a b c d u v : nat), ends_of [a; b; c; d] u v <-> In (u, v) [(a, d); (d, a)]).
  { intros. split.
    - intros ([|? [|? [|? ?]]] & [E|E]); cbn in E; try discriminate; injection E; intros; subst; cbn; auto; destruct l; discriminate.
    - intros [X|[X|[]]]; injection X as <- <-; exists [b; c]; auto. }
  assert (Hp : forall (l : list (nat * nat * unit)) u v, (exists w, In (u, v, w) l \/ In (v, u, w) l) <-> In (u, v, tt) l \/ In (v, u, tt) l).
  { intros l u v. split; [intros ([] & I); auto|intros I; exists tt; auto]. }
  cbn zeta. split; [|split].
  - split; [|split; [|reflexivity]].
    + split; [repeat constructor; cbn; intuition congruence| |repeat constructor; cbn; auto]. cbn. intros u v w I. edges; cbn; auto 10.
    + split; [repeat constructor; cbn; intuition congruence|]. split; [cbn; lia|]. split; [cbn; intuition|]. intros u v. rewrite Nx. unfold has_edge. rewrite Hp. cbn.
      split; intros I; edges; tauto.
  - split; [|split; [|reflexivity]].
    + split; [repeat constructor; cbn; intuition congruence| |repeat constructor; cbn; auto]. cbn. intros u v w I. edges; cbn; auto 10.
    + split; [repeat constructor; cbn; intuition congruence|]. split; [cbn; lia|]. split; [cbn; intuition|]. intros u v. rewrite Nx, En. unfold has_edge. rewrite Hp. cbn.
      split; intros I; edges; tauto.
  - split; [|split; reflexivity].
    split; [repeat constructor; cbn; intuition congruence| |repeat constructor; cbn; auto]. cbn. intros u v w I. edges; cbn; auto 10.
Qed.
