(** C41-C43: clusters. *)
From Verif Require Import Base BaseFacts CoordSys SpecGeom CoordSysFacts CoordSysR Graph SpecGraph GraphFacts GraphComponents Cluster SpecCluster ClusterFacts.
From Coq Require Import Reals.
Open Scope list_scope.

(** The clusters contain every distinct position exactly once ([NoDup] of the
    concatenation: no position is twice in one cluster or in two clusters), and none
    is empty. *)
Theorem C41_partition : forall order eorder cs fs positions, any_order order -> any_order eorder -> wf_box cs -> Forall (is_pos cs) positions ->
  let clusters := create_clusters order eorder cs fs positions in
  (forall x, In x (concat (map (@g_nodes point R) clusters)) <-> In x positions) /\
  NoDup (concat (map (@g_nodes point R) clusters)) /\
  forall c, In c clusters -> g_nodes c <> [].
Proof. intros order eorder cs fs positions O EO B P clusters. pose proof (clusters_partition order eorder cs fs positions O EO B P) as Pm. fold clusters in Pm. split; [|split].
  - intros x. rewrite <- (in_dedup x positions). split; apply Permutation_in; auto. apply Permutation_sym; auto.
  - eapply Permutation_NoDup; [apply Permutation_sym; exact Pm|]. apply NoDup_dedup.
  - intros c I. eapply cluster_nonempty; eauto. Qed.
Print Assumptions C41_partition.

(** [c] and [d] have the same positions and the same edges with the same distances *)
Definition same_cluster (c d : graph point R) : Prop :=
  (forall x, In x (g_nodes c) <-> In x (g_nodes d)) /\
  (forall x y, has_edge c x y <-> has_edge d x y) /\
  (forall x y, edge_attr c x y = edge_attr d x y).

Lemma edge_attr_distance order eorder cs fs positions c x y : any_order order -> any_order eorder -> wf_box cs -> Forall (is_pos cs) positions ->
  In c (create_clusters order eorder cs fs positions) -> has_edge c x y -> edge_attr c x y = Some (distance cs x y).
Proof. intros O EO B P I E. unfold edge_attr. destruct (find (joins x y) (g_edges c)) as [[[u v] w]|] eqn:F.
  - apply find_some in F as (F & J). apply joins_spec in J. destruct (cluster_attr order eorder cs fs positions O EO B P c u v w I F) as (Ew & N). cbn [snd]. rewrite Ew. f_equal. cbn in J.
    destruct J as [[-> ->]|[-> ->]]; auto. unfold distance. rewrite (dist_sq_sym cs y x); auto;
      (apply (proj1 (Forall_forall _ _) P); destruct (wg_ends (cluster_wf order eorder cs fs positions O EO B P c I) y x w F) as (X1 & X2);
       apply (proj1 (C41_partition order eorder cs fs positions O EO B P)); apply in_concat; exists (g_nodes c); split; auto; apply in_map; auto).
  - exfalso. destruct E as (w & [E|E]); apply (find_none _ _ F) in E; unfold joins, end1, end2 in E; cbn in E; unfold eqb in E; repeat destruct (eq_dec _ _); cbn in E; congruence. Qed.
Lemma edge_attr_none (c : graph point R) x y : ~ has_edge c x y -> edge_attr c x y = None.
Proof. intros N. unfold edge_attr. destruct (find (joins x y) (g_edges c)) as [[[u v] w]|] eqn:F; auto. exfalso. apply N. apply find_some in F as (F & J). apply joins_spec in J. cbn in J.
  exists w. destruct J as [[-> ->]|[-> ->]]; auto. Qed.

Lemma close_set cs fs l l' x y : (forall z, In z l <-> In z l') -> close cs fs l x y <-> close cs fs l' x y.
Proof. intros S. unfold close. rewrite !S. tauto. Qed.

(** distinct entries of the list are not both related to one thing *)
Lemma matched_length {A B} (R : A -> B -> Prop) (l : list A) : forall m, ForallOrdPairs (fun a a' => forall b, ~ (R a b /\ R a' b)) l ->
  (forall a, In a l -> exists b, In b m /\ R a b) -> (length l <= length m)%nat.
Proof. induction l as [|a l IH]; intros m F M; cbn; [lia|]. destruct (M a (or_introl eq_refl)) as (b & Ib & Rb). apply in_split in Ib as (m1 & m2 & ->).
  inversion_clear F as [|? ? F1 F2]. rewrite Forall_forall in F1. assert (L : (length l <= length (m1 ++ m2))%nat).
  { apply IH; auto. intros a' Ia'. destruct (M a' (or_intror Ia')) as (b' & Ib' & Rb'). exists b'. split; auto. apply in_app_iff in Ib' as [Ib'|[<-|Ib']]; [apply in_app_iff; auto| |apply in_app_iff; auto].
    exfalso. apply (F1 a' Ia' b). auto. }
  rewrite app_length in *. cbn. lia. Qed.
Lemma NoDup_app_inv {A} (l m : list A) : NoDup (l ++ m) -> NoDup l /\ NoDup m /\ forall x, In x l -> ~ In x m.
Proof. induction l as [|a l IH]; cbn; intros N; [split; [constructor|]; split; auto|]. inversion_clear N as [|? ? Na Nl]. destruct (IH Nl) as (I1 & I2 & I3). split; [|split; auto].
  - constructor; auto. intros X. apply Na, in_app_iff. auto.
  - intros x [<-|X]; auto. intros Y. apply Na, in_app_iff. auto. Qed.
Lemma disjoint_pairs (l : list (graph point R)) : NoDup (concat (map (@g_nodes point R) l)) -> (forall c, In c l -> g_nodes c <> []) ->
  ForallOrdPairs (fun c c' => forall d, ~ (same_cluster c d /\ same_cluster c' d)) l.
Proof. induction l as [|c l IH]; cbn [map concat]; intros N E; constructor.
  - apply Forall_forall. intros c' I d ((S1 & _) & (S2 & _)). specialize (E c (or_introl eq_refl)). destruct (g_nodes c) as [|x xs] eqn:Q; [congruence|].
    apply NoDup_app_inv in N as (_ & _ & N). apply (N x (or_introl eq_refl)). apply in_concat. exists (g_nodes c'). split; [apply in_map; auto|]. apply S2, S1. left; auto.
  - apply IH; [apply NoDup_app_inv in N; tauto|]. intros c' I. apply E. right; auto. Qed.

(** Neither the order of the positions nor repetitions of them, nor the iteration order
    of sets, affect the clusters. *)
Theorem C41_order_irrelevant : forall order eorder order' eorder' cs fs positions positions',
  any_order order -> any_order eorder -> any_order order' -> any_order eorder' -> wf_box cs -> Forall (is_pos cs) positions ->
  (forall x, In x positions <-> In x positions') ->
  let clusters := create_clusters order eorder cs fs positions in
  let clusters' := create_clusters order' eorder' cs fs positions' in
  length clusters = length clusters' /\
  (forall c, In c clusters -> exists c', In c' clusters' /\ same_cluster c c') /\
  (forall c', In c' clusters' -> exists c, In c clusters /\ same_cluster c c').
Proof.
  assert (H : forall order eorder order' eorder' cs fs positions positions',
    any_order order -> any_order eorder -> any_order order' -> any_order eorder' -> wf_box cs -> Forall (is_pos cs) positions ->
    (forall x, In x positions <-> In x positions') ->
    forall c, In c (create_clusters order eorder cs fs positions) -> exists c', In c' (create_clusters order' eorder' cs fs positions') /\ same_cluster c c').
  { intros order eorder order' eorder' cs fs l l' O EO O' EO' B P S c I.
    assert (P' : Forall (is_pos cs) l') by (rewrite Forall_forall in *; intros x Hx; apply P, S; auto).
    pose proof (cluster_nonempty order eorder cs fs l O EO B P c I) as Ne. destruct (g_nodes c) as [|u us] eqn:Q; [congruence|]. assert (Iu : In u (g_nodes c)) by (rewrite Q; left; auto). clear Q Ne us.
    assert (Iul : In u l). { apply (proj1 (C41_partition order eorder cs fs l O EO B P)). apply in_concat. exists (g_nodes c). split; auto. apply in_map; auto. }
    destruct (cluster_exists order' eorder' cs fs l' O' EO' B P' u (proj1 (S u) Iul)) as (c' & I' & Iu'). exists c'. split; auto.
    assert (N : forall x, In x (g_nodes c) <-> In x (g_nodes c')).
    { intros x. rewrite (cluster_same order eorder cs fs l O EO B P c u x I Iu), (cluster_same order' eorder' cs fs l' O' EO' B P' c' u x I' Iu').
      split; apply linked_mono; intros a b Hab; apply (close_set cs fs l l' a b S); auto. }
    assert (W : wf_graph c) by (eapply cluster_wf; [exact O|exact EO|exact B|exact P|exact I]). assert (W' : wf_graph c') by (eapply cluster_wf; [exact O'|exact EO'|exact B|exact P'|exact I']).
    assert (E : forall x y, has_edge c x y <-> has_edge c' x y).
    { intros x y. split; intros X.
      - assert (Ix : In x (g_nodes c)) by apply (wf_ends W X). apply (cluster_edges order eorder cs fs l O EO B P c x y I Ix) in X.
        apply (cluster_edges order' eorder' cs fs l' O' EO' B P' c' x y I'); [apply N; auto|]. apply (close_set cs fs l l' x y S); auto.
      - assert (Ix : In x (g_nodes c')) by apply (wf_ends W' X). apply (cluster_edges order' eorder' cs fs l' O' EO' B P' c' x y I' Ix) in X.
        apply (cluster_edges order eorder cs fs l O EO B P c x y I); [apply N; auto|]. apply (close_set cs fs l l' x y S); auto. }
    split; auto. split; auto. intros x y. destruct (adj c x y) eqn:A.
    - apply adj_spec in A. rewrite (edge_attr_distance order eorder cs fs l c x y O EO B P I A). rewrite (edge_attr_distance order' eorder' cs fs l' c' x y O' EO' B P' I' (proj1 (E x y) A)). auto.
    - assert (A' : ~ has_edge c x y) by (intros X; apply adj_spec in X; congruence). rewrite (edge_attr_none c x y A'). rewrite (edge_attr_none c' x y); auto. rewrite <- E. auto. }
  intros order eorder order' eorder' cs fs l l' O EO O' EO' B P S clusters clusters'.
  assert (P' : Forall (is_pos cs) l') by (rewrite Forall_forall in *; intros x Hx; apply P, S; auto).
  assert (S' : forall x, In x l' <-> In x l) by (intros x; symmetry; auto).
  pose proof (H order eorder order' eorder' cs fs l l' O EO O' EO' B P S) as H1. pose proof (H order' eorder' order eorder cs fs l' l O' EO' O EO B P' S') as H2.
  assert (Sym : forall c d, same_cluster c d -> same_cluster d c).
  { intros c d (X & Y & Z). split; [intros x; symmetry; auto|]. split; [intros x y; symmetry; auto|]. intros; symmetry; auto. }
  split; [|split; [exact H1|]].
  - destruct (C41_partition order eorder cs fs l O EO B P) as (_ & N1 & E1). destruct (C41_partition order' eorder' cs fs l' O' EO' B P') as (_ & N2 & E2).
    apply Nat.le_antisymm; apply (matched_length same_cluster); auto; apply disjoint_pairs; auto.
  - intros c' I'. destruct (H2 c' I') as (c & I & Sc). exists c. auto. Qed.
Print Assumptions C41_order_irrelevant.

(** Two positions share a cluster exactly if a chain of positions links them. *)
Theorem C42_chains : forall order eorder cs fs positions x y, any_order order -> any_order eorder -> wf_box cs -> Forall (is_pos cs) positions -> In x positions ->
  (exists c, In c (create_clusters order eorder cs fs positions) /\ In x (g_nodes c) /\ In y (g_nodes c)) <-> linked (close cs fs positions) x y.
Proof. intros order eorder cs fs l x y O EO B P Ix. split.
  - intros (c & I & Ixc & Iyc). apply (cluster_same order eorder cs fs l O EO B P c x y I Ixc). auto.
  - intros L. destruct (cluster_exists order eorder cs fs l O EO B P x Ix) as (c & I & Ixc). exists c. split; auto. split; auto. apply (cluster_same order eorder cs fs l O EO B P c x y I Ixc). auto. Qed.
Print Assumptions C42_chains.
(** Each cluster is connected, by edges inside it. *)
Theorem C42_connected : forall order eorder cs fs positions c, any_order order -> any_order eorder -> wf_box cs -> Forall (is_pos cs) positions ->
  In c (create_clusters order eorder cs fs positions) -> connected c.
Proof. intros. eapply cluster_connected; eauto. Qed.
Print Assumptions C42_connected.
(** Positions of different clusters are more than the feature size apart. *)
Theorem C42_separated : forall order eorder cs fs positions c d x y, any_order order -> any_order eorder -> wf_box cs -> Forall (is_pos cs) positions ->
  In c (create_clusters order eorder cs fs positions) -> In d (create_clusters order eorder cs fs positions) ->
  In x (g_nodes c) -> In y (g_nodes d) -> ~ In y (g_nodes c) -> (Qc2R fs < distance cs x y)%R.
Proof. intros order eorder cs fs l c d x y O EO B P Ic Id Ix Iy N. apply Rnot_le_lt. intros X. apply N. apply (cluster_same order eorder cs fs l O EO B P c x y Ic Ix). apply linked_one.
  assert (Q : forall c x, In c (create_clusters order eorder cs fs l) -> In x (g_nodes c) -> In x l).
  { intros c' z I' Iz. apply (proj1 (C41_partition order eorder cs fs l O EO B P)). apply in_concat. exists (g_nodes c'). split; auto. apply in_map; auto. }
  split; [eauto|]. split; [eauto|]. split; [intros ->; auto|exact X]. Qed.
Print Assumptions C42_separated.

(** Edges of a cluster graph: exactly the pairs at most [fs] apart, carrying their
    distance; no self-loops, no parallel edges, no edge leaves the cluster. *)
Theorem C43_edges : forall order eorder cs fs positions c, any_order order -> any_order eorder -> wf_box cs -> Forall (is_pos cs) positions ->
  In c (create_clusters order eorder cs fs positions) ->
  wf_graph c /\ loopless c /\
  (forall x y, In x (g_nodes c) -> In y (g_nodes c) -> (has_edge c x y <-> x <> y /\ (distance cs x y <= Qc2R fs)%R)) /\
  (forall x y, has_edge c x y -> In x (g_nodes c) /\ In y (g_nodes c) /\ edge_attr c x y = Some (distance cs x y)).
Proof. intros order eorder cs fs l c O EO B P I. pose proof (cluster_wf order eorder cs fs l O EO B P c I) as W.
  assert (Q : forall x, In x (g_nodes c) -> In x l).
  { intros z Iz. apply (proj1 (C41_partition order eorder cs fs l O EO B P)). apply in_concat. exists (g_nodes c). split; auto. apply in_map; auto. }
  split; auto. split; [|split].
  - intros u (w & E). assert (E' : In (u, u, w) (g_edges c)) by tauto. apply (cluster_attr order eorder cs fs l O EO B P c u u w I) in E'. tauto.
  - intros x y Ix Iy. rewrite (cluster_edges order eorder cs fs l O EO B P c x y I Ix). unfold close. split; [tauto|]. intros (N & D). auto.
  - intros x y E. destruct (wf_ends W E). split; auto. split; auto. eapply edge_attr_distance; eauto. Qed.
Print Assumptions C43_edges.

(** the hypotheses are met: three points on a circle of circumference 1, two of them
    close across the boundary *)
Definition c41_cs : coordsys := mk_cs [(0%Qc, 1%Qc)] true.
Definition c41_q (n d : Z) : Qc := Q2Qc (Qmake n (Z.to_pos d)).
Definition c41_ps : list point := [[c41_q 1 20]; [c41_q 1 2]; [c41_q 19 20]; [c41_q 1 2]].
Theorem C41_hypotheses_met : any_order (fun l : list point => rev l) /\ any_order (fun l : list (point * point * R) => l) /\ wf_box c41_cs /\ Forall (is_pos c41_cs) c41_ps /\
  map (@g_nodes point R) (create_clusters (fun l => rev l) (fun l => l) c41_cs (c41_q 1 5) c41_ps) = [[[c41_q 1 20]; [c41_q 19 20]]; [[c41_q 1 2]]].
Proof. split; [intros l; apply Permutation_sym, Permutation_rev|]. split; [intros l; apply Permutation_refl|].
  split; [repeat constructor|]. split; [repeat constructor|]. vm_compute. reflexivity. Qed.
Print Assumptions C41_hypotheses_met.
