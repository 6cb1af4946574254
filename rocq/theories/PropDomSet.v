(** C49: the dominating-set method. *)
From Verif Require Import Base BaseFacts CoordSys SpecGeom CoordSysFacts GeomCombined CoordSysR Graph SpecGraph GraphFacts Cluster SpecCluster ClusterFacts PropCluster Paths SpecPath PathFacts PropShortest ShortestPathFacts DomSet SpecDomSet DomSetFacts DomSetHoles DomSetDup.
From Coq Require Import Reals Psatz.
From Coq Require Import Lra.
Open Scope list_scope.

Section C49.
  Variables (order eorder : list point -> list point).
  Variables (eo : list (point * point * R) -> list (point * point * R)) (eo2 : list (point * point * (R * option R)) -> list (point * point * (R * option R))).
  Variables (spath : graph point R -> point -> point -> option (list point)) (domset : graph point unit -> list point).
  Variables (cs : coordsys) (fs : Qc) (positions : list point) (c : graph point R).

  (** [c] is one of the clusters of [positions]; the library functions are arbitrary ones
      that meet their specifications *)
  Definition c49_setting : Prop := any_order order /\ any_order eorder /\ any_order eo /\ any_order eo2 /\ good_spath spath /\ good_domset domset /\
    wf_box cs /\ (0 < fs)%Qc /\ Forall (is_pos cs) positions /\ In c (create_clusters order eo cs fs positions).

  Notation F := (Qc2R fs).
  Notation D := (domset (reduced_graph F c)).
  Notation evaluate := (evaluate_line_dominating_set eorder eo2 spath domset cs F c).

  Lemma c49_facts : c49_setting -> (0 < F)%R /\ wf_graph c /\ connected c /\ g_nodes c <> [] /\ (forall x, In x (g_nodes c) -> is_pos cs x) /\
    (forall u v w, In (u, v, w) (g_edges c) -> w = distance cs u v) /\ (forall u v, has_edge c u v -> (distance cs u v <= F)%R) /\ loopless c /\
    forall x y, In x (g_nodes c) -> In y (g_nodes c) -> (has_edge c x y <-> x <> y /\ (distance cs x y <= F)%R).
  Proof. intros (O1 & O2 & O3 & O4 & S & Dm & B & Fp & P & I). destruct (C43_edges order eo cs fs positions c O1 O3 B P I) as (Wf & Lp & Ed & At).
    split; [rewrite <- Qc2R_0; apply Qc2R_lt; auto|]. split; auto. split; [apply (cluster_connected order eo cs fs positions O1 O3 B P c I)|]. split; [apply (cluster_nonempty order eo cs fs positions O1 O3 B P c I)|].
    split. { intros z Iz. apply (proj1 (Forall_forall _ _) P). apply (proj1 (C41_partition order eo cs fs positions O1 O3 B P)). apply in_concat. exists (g_nodes c). split; auto. apply in_map; auto. }
    split. { intros u v w J. destruct (At u v) as (_ & _ & E); [exists w; auto|]. rewrite (attr_in c u v w Wf J) in E. congruence. }
    split; [|split; auto]. intros u v E. destruct (wf_ends Wf E). apply Ed in E; tauto. Qed.

  (** the cases of [DomSetFacts] *)
  Lemma c49_cases : c49_setting ->
    (evaluate = Err NetworkXNoPath /\ exists a b, In a D /\ In b D /\ ~ linked (within c D) a b) \/
    ((forall a b, In a D -> In b D -> linked (within c D) a b) /\
     ((exists r, evaluate = Ok r /\ inv2 domset cs F c r /\ forall a b, within c D a b -> exists s t p, hole cs F c D s t /\ shortest cs c s t p /\ passes (s :: p) a b) \/
      evaluate = Err TypeError /\ exists a b, within c D a b)).
  Proof. intros S. destruct (c49_facts S) as (Fp & Wf & Cn & Ne & Ps & At & Nr & _). destruct S as (O1 & O2 & O3 & O4 & S & Dm & B & _).
    exact (dominating_set_cases eorder eo2 spath domset cs F c O2 O4 S Dm B Fp Wf Cn Ne Ps At Nr). Qed.
End C49.

(** The graph in which the dominating set is chosen: edges shorter than a third of the
    feature size. *)
Theorem C49_reduced : forall order eorder eo eo2 spath domset cs fs positions c, c49_setting order eorder eo eo2 spath domset cs fs positions c ->
  forall x y, In x (g_nodes c) -> In y (g_nodes c) ->
  In x (g_nodes (reduced_graph (Qc2R fs) c)) /\ (has_edge (reduced_graph (Qc2R fs) c) x y <-> x <> y /\ (distance cs x y < Qc2R fs / 3)%R).
Proof. intros until c. intros S x y Ix Iy. destruct (c49_facts _ _ _ _ _ _ _ _ _ _ S) as (Fp & Wf & Cn & Ne & Ps & At & Nr & Lp & Ed). split; [apply reduced_nodes; auto|]. destruct S as (_ & _ & _ & _ & _ & _ & B & _). rewrite reduced_edges. split.
  - intros (w & J & L). assert (E : has_edge c x y) by (exists w; auto). split; [apply (Ed x y Ix Iy); auto|]. destruct J as [J|J]; rewrite (At _ _ _ J) in L; auto. rewrite (distance_sym cs x y); auto.
  - intros (N & L). assert (E : has_edge c x y) by (apply Ed; auto; split; auto; lra). destruct E as (w & J). exists w. split; auto. destruct J as [J|J]; rewrite (At _ _ _ J); auto. rewrite (distance_sym cs y x); auto. Qed.
Print Assumptions C49_reduced.

(** If two chosen positions are not linked by steps between adjacent chosen positions,
    the method fails with NetworkXNoPath (which [identify] does not catch). *)
Theorem C49_disconnected : forall order eorder eo eo2 spath domset cs fs positions c, c49_setting order eorder eo eo2 spath domset cs fs positions c ->
  forall a b, In a (domset (reduced_graph (Qc2R fs) c)) -> In b (domset (reduced_graph (Qc2R fs) c)) -> ~ linked (within c (domset (reduced_graph (Qc2R fs) c))) a b ->
  evaluate_line_dominating_set eorder eo2 spath domset cs (Qc2R fs) c = Err NetworkXNoPath.
Proof. intros until c. intros S a b Ia Ib N. destruct (c49_cases _ _ _ _ _ _ _ _ _ _ S) as [(E & _)|(L & _)]; auto. exfalso. apply N; auto. Qed.
Print Assumptions C49_disconnected.

(** Otherwise, if some edge between two chosen positions lies on no shortest path across
    a hole, the method fails with TypeError (which [identify] does not catch). *)
Theorem C49_unpatched : forall order eorder eo eo2 spath domset cs fs positions c, c49_setting order eorder eo eo2 spath domset cs fs positions c ->
  let D := domset (reduced_graph (Qc2R fs) c) in
  (forall a b, In a D -> In b D -> linked (within c D) a b) ->
  forall a b, within c D a b -> (forall s t p, hole cs (Qc2R fs) c D s t -> shortest cs c s t p -> ~ passes (s :: p) a b) ->
  evaluate_line_dominating_set eorder eo2 spath domset cs (Qc2R fs) c = Err TypeError.
Proof. intros until c. intros S D L a b W N. destruct (c49_cases _ _ _ _ _ _ _ _ _ _ S) as [(E & x & y & Ix & Iy & X)|(_ & [(r & _ & _ & X)|(E & _)])]; auto.
  - exfalso. apply X. apply L; auto.
  - exfalso. destruct (X a b W) as (s & t & p & H1 & H2 & H3). apply (N s t p); auto. Qed.
Print Assumptions C49_unpatched.

(** So without holes the method never returns a line, unless a single position is chosen. *)
Theorem C49_without_holes_refuted : forall order eorder eo eo2 spath domset cs fs positions c, c49_setting order eorder eo eo2 spath domset cs fs positions c ->
  let D := domset (reduced_graph (Qc2R fs) c) in
  (forall s t, ~ hole cs (Qc2R fs) c D s t) -> forall a b, In a D -> In b D -> a <> b ->
  evaluate_line_dominating_set eorder eo2 spath domset cs (Qc2R fs) c = Err TypeError \/
  evaluate_line_dominating_set eorder eo2 spath domset cs (Qc2R fs) c = Err NetworkXNoPath.
Proof. intros until c. intros S D N a b Ia Ib Nab. destruct (c49_cases _ _ _ _ _ _ _ _ _ _ S) as [(E & _)|(L & [(r & _ & _ & X)|(E & _)])]; auto.
  exfalso. destruct (L a b Ia Ib) as (p & Fp & Lp). destruct p as [|x p]; [cbn in Lp; auto|]. destruct Fp as (W & _). destruct (X a x W) as (s & t & q & H & _). apply (N s t); auto. Qed.
Print Assumptions C49_without_holes_refuted.

(** In particular the method fails on every cluster of at least two positions that are
    at least a third of the feature size apart (the default cutoff of the search). *)
Theorem C49_separated_refuted : forall order eorder eo eo2 spath domset cs fs positions c, c49_setting order eorder eo eo2 spath domset cs fs positions c ->
  (forall x y, In x (g_nodes c) -> In y (g_nodes c) -> x <> y -> (Qc2R fs / 3 <= distance cs x y)%R) ->
  forall a b, In a (g_nodes c) -> In b (g_nodes c) -> a <> b ->
  evaluate_line_dominating_set eorder eo2 spath domset cs (Qc2R fs) c = Err TypeError.
Proof. intros until c. intros S Sep a b Ia Ib Nab. pose proof (c49_facts _ _ _ _ _ _ _ _ _ _ S) as (Fp & Wf & Cn & Ne & Ps & At & Nr & Lp & Ed). set (D := domset (reduced_graph (Qc2R fs) c)).
  assert (All : forall x, In x D <-> In x (g_nodes c)).
  { pose proof S as (_ & _ & _ & _ & _ & Dm & _). destruct (Dm (reduced_graph (Qc2R fs) c) (reduced_wf (Qc2R fs) c)) as (Inc & Dom). intros x. split; [intros I; apply (reduced_nodes (Qc2R fs) c Wf); auto|].
    intros Ix. destruct (Dom x) as [I|(y & Iy & E)]; [apply reduced_nodes; auto|auto|]. exfalso.
    assert (Iyc : In y (g_nodes c)) by (apply (reduced_nodes (Qc2R fs) c Wf); auto).
    apply (C49_reduced _ _ _ _ _ _ _ _ _ _ S x y Ix Iyc) in E as (N & L). pose proof (Sep x y Ix Iyc N). lra. }
  assert (W : forall x y, within c D x y <-> has_edge c x y). { intros x y. unfold within. rewrite !All. split; [tauto|]. intros E. destruct (wf_ends Wf E). auto. }
  assert (L : forall x y, In x D -> In y D -> linked (within c D) x y). { intros x y Ix Iy. apply (@linked_mono _ (has_edge c)); [intros; apply W; auto|]. apply Cn; apply All; auto. }
  assert (Nh : forall s t, ~ hole cs (Qc2R fs) c D s t).
  { intros s t (_ & _ & _ & p & (Fq & Lq & _) & _ & M). destruct (M p) as (_ & _ & X); auto.
    - clear - Fq W. revert s Fq. induction p as [|x p IH]; intros s F; cbn; auto. destruct F. split; auto. apply W; auto.
    - assert (0 <= total cs s p)%R by (clear; revert s; induction p as [|x p IH]; intros s; cbn [total]; [lra|]; specialize (IH x); pose proof (distance_nonneg cs s x); lra). lra. }
  destruct (C49_without_holes_refuted _ _ _ _ _ _ _ _ _ _ S Nh a b) as [E|E]; auto; try (apply All; auto).
  exfalso. destruct (c49_cases _ _ _ _ _ _ _ _ _ _ S) as [(_ & x & y & Ix & Iy & X)|(_ & [(r & E' & _)|(E' & _)])]; try congruence. apply X. apply L; auto. Qed.
Print Assumptions C49_separated_refuted.

(** What is returned, if anything: a connected part of the cluster that contains all
    chosen positions; every position of the cluster is on it or has an adjacent position
    on it that is closer than a third of the feature size.  No other exception is
    possible. *)
Theorem C49_returned : forall order eorder eo eo2 spath domset cs fs positions c, c49_setting order eorder eo eo2 spath domset cs fs positions c ->
  match evaluate_line_dominating_set eorder eo2 spath domset cs (Qc2R fs) c with
  | Ok r => wf_graph r /\ part_of r c /\ connected r /\ incl (domset (reduced_graph (Qc2R fs) c)) (g_nodes r) /\
      forall x, In x (g_nodes c) -> In x (g_nodes r) \/ exists y, In y (g_nodes r) /\ has_edge c x y /\ (distance cs x y < Qc2R fs / 3)%R
  | Err e => e = TypeError \/ e = NetworkXNoPath
  end.
Proof. intros until c. intros S. pose proof (c49_facts _ _ _ _ _ _ _ _ _ _ S) as (Fp & Wf & Cn & Ne & Ps & At & Nr & Lp & Ed). destruct (c49_cases _ _ _ _ _ _ _ _ _ _ S) as [(-> & _)|(_ & [(r & -> & (Ds & Cr & Inc) & _)|(-> & _)])]; auto.
  split; [apply Ds|]. split; [split; [apply Ds|]|].
  - intros u v (a & [J|J]); apply (ds_edges _ _ _ Ds) in J as (J & _); auto. apply has_edge_sym; auto.
  - split; auto. split; auto. intros x Ix. pose proof S as (O1 & O2 & O3 & O4 & Sp & Dm & B & _). destruct (chosen_near eorder eo2 spath domset cs (Qc2R fs) c O2 O4 Sp Dm B Fp Wf Cn Ne Ps At Nr x Ix) as (y & Iy & [->|(E & L)]); [left; apply Inc; auto|]. right. exists y. split; auto. Qed.
Print Assumptions C49_returned.

(** After the patching of holes, any two chosen positions that are connected in the cluster by
    a path shorter than two feature sizes are connected by a path at most twice as long; nothing
    is removed, and only positions and steps of the cluster are added. *)
Theorem C49_holes_patched : forall order eorder eo eo2 spath domset cs fs positions c, c49_setting order eorder eo eo2 spath domset cs fs positions c ->
  let D := domset (reduced_graph (Qc2R fs) c) in
  (forall a b, In a D -> In b D -> linked (within c D) a b) ->
  exists h, patch_all_subgraph_holes spath cs (Qc2R fs) (subgraph eorder eo2 (map_attr (fun d => (d, None)) c) D) (with_weights c) = Ok h /\
    wf_graph h /\ part_of h c /\ connected h /\ incl D (g_nodes h) /\ (forall a b, within c D a b -> has_edge h a b) /\
    forall a b p, In a D -> In b D -> follows (has_edge c) a p -> last (a :: p) a = b -> (total cs a p < 2 * Qc2R fs)%R ->
      exists q, follows (has_edge h) a q /\ last (a :: q) a = b /\ (total cs a q <= 2 * total cs a p)%R.
Proof. intros until c. intros S D L. pose proof (c49_facts _ _ _ _ _ _ _ _ _ _ S) as (Fp & Wf & Cn & Ne & Ps & At & Nr & Lp & Ed). pose proof S as (O1 & O2 & O3 & O4 & Sp & Dm & B & _).
  destruct (patched eorder eo2 spath domset cs (Qc2R fs) c O2 O4 Sp Dm B Fp Wf Cn Ne Ps At Nr (fun u v Iu Iv N X => proj2 (Ed u v Iu Iv) (conj N X)) L) as (h & E & Iv & _ & Cl).
  exists h. split; [exact E|]. pose proof (iv_sub _ _ _ _ h Iv) as Ds. split; [apply Ds|]. split; [split; [apply Ds|]|].
  - intros u v (a & [J|J]); apply (ds_edges _ _ _ Ds) in J as (J & _); auto. apply has_edge_sym; auto.
  - split; [apply Iv|]. split; [apply Iv|]. split; [apply Iv|]. intros a b p Ia Ib F La T. apply (Cl a b (total cs a p) Ia Ib); auto; exists p; (split; [auto|split; [auto|lra]]). Qed.
Print Assumptions C49_holes_patched.

(** The removal of duplicate paths, for any graph whose edges all have weights: no position and
    no connection is lost, paths do not get heavier, and for no remaining edge there is a
    lighter path between its ends. *)
Theorem C49_duplicates_removed : forall spath h, good_spath spath -> wf_graph h ->
  (forall u v a, In (u, v, a) (g_edges h) -> exists w, snd a = Some w /\ (0 <= w)%R) ->
  exists r, remove_duplicate_paths spath h = Ok r /\ wf_graph r /\ g_nodes r = g_nodes h /\ incl (g_edges r) (g_edges h) /\
    (forall u v p, is_path h u v p -> exists p', is_path r u v p' /\ (path_weight (weight_graph h) p' <= path_weight (weight_graph h) p)%R) /\
    (forall u v d w, In (u, v, (d, Some w)) (g_edges r) -> u <> v -> forall p, is_path r u v p -> (w <= path_weight (weight_graph h) p)%R).
Proof. intros spath h Sp Wf Nn. apply duplicates_removed; auto. Qed.
Print Assumptions C49_duplicates_removed.

(** Finding: the edges of the subgraph of the dominating set have no weight (the weights were
    put on a copy of the graph), and a patch never passes over one of them, because shorter holes
    were patched before.  So the method fails on every cluster (of positions at different places)
    for which at least two positions are chosen. *)
Theorem C49_never_works_refuted : forall order eorder eo eo2 spath domset cs fs positions c, c49_setting order eorder eo eo2 spath domset cs fs positions c ->
  (forall x y, In x (g_nodes c) -> In y (g_nodes c) -> x <> y -> (0 < distance cs x y)%R) ->
  forall a b, In a (domset (reduced_graph (Qc2R fs) c)) -> In b (domset (reduced_graph (Qc2R fs) c)) -> a <> b ->
  evaluate_line_dominating_set eorder eo2 spath domset cs (Qc2R fs) c = Err TypeError \/
  evaluate_line_dominating_set eorder eo2 spath domset cs (Qc2R fs) c = Err NetworkXNoPath.
Proof. intros until c. intros S Pos a b Ia Ib Nab. pose proof (c49_facts _ _ _ _ _ _ _ _ _ _ S) as (Fp & Wf & Cn & Ne & Ps & At & Nr & Lp & Ed). pose proof S as (O1 & O2 & O3 & O4 & Sp & Dm & B & _).
  destruct (c49_cases _ _ _ _ _ _ _ _ _ _ S) as [(E & _)|(L & [(r & E & _)|(E & _)])]; auto. exfalso.
  assert (Se : separated cs c). { intros u v E'. destruct (wf_ends Wf E') as (Iu & Iv). apply Pos; auto. apply Ed in E'; tauto. }
  destruct (L a b Ia Ib) as (p & F & La). destruct p as [|x p]; [cbn in La; congruence|]. destruct F as (W & _).
  apply (never_works eorder eo2 spath domset cs (Qc2R fs) c O2 O4 Sp Dm B Fp Wf Cn Ne Ps At Nr (fun u v Iu Iv N X => proj2 (Ed u v Iu Iv) (conj N X)) Se r E a x W). Qed.
Print Assumptions C49_never_works_refuted.

(** If a single position is chosen, it is returned as line. *)
Theorem C49_single : forall order eorder eo eo2 spath domset cs fs positions c, c49_setting order eorder eo eo2 spath domset cs fs positions c ->
  forall x, (forall y, In y (domset (reduced_graph (Qc2R fs) c)) <-> y = x) ->
  exists r, evaluate_line_dominating_set eorder eo2 spath domset cs (Qc2R fs) c = Ok r /\ In x (g_nodes c) /\
    (forall y, In y (g_nodes c) -> y <> x -> (distance cs y x < Qc2R fs / 3)%R) /\ incl (domset (reduced_graph (Qc2R fs) c)) (g_nodes r) /\ connected r /\ part_of r c.
Proof. intros until c. intros S x Dx. pose proof (c49_facts _ _ _ _ _ _ _ _ _ _ S) as (Fp & Wf & Cn & Ne & Ps & At & Nr & Lp & Ed). pose proof S as (O1 & O2 & O3 & O4 & Sp & Dm & B & _).
  assert (Nw : forall a b, ~ within c (domset (reduced_graph (Qc2R fs) c)) a b). { intros a b (E & Ia & Ib). apply Dx in Ia, Ib. subst. destruct (wf_ends Wf E) as (Iu & _). apply (Ed x x Iu Iu) in E. tauto. }
  pose proof (C49_returned _ _ _ _ _ _ _ _ _ _ S) as Rt.
  destruct (c49_cases _ _ _ _ _ _ _ _ _ _ S) as [(E & a & b & Ia & Ib & X)|(L & [(r & E & _)|(E & a & b & X)])].
  - exfalso. apply Dx in Ia, Ib. subst. apply X. apply linked_refl.
  - exists r. split; auto. rewrite E in Rt. destruct Rt as (_ & Po & Cr & Inc & _). split; [apply (chosen_in eorder eo2 spath domset cs (Qc2R fs) c O2 O4 Sp Dm B Fp Wf Cn Ne Ps At Nr); apply Dx; auto|]. split; auto.
    intros y Iy Ny. destruct (chosen_near eorder eo2 spath domset cs (Qc2R fs) c O2 O4 Sp Dm B Fp Wf Cn Ne Ps At Nr y Iy) as (z & Iz & Hz). apply Dx in Iz. subst z. destruct Hz as [|(_ & Hz)]; [contradiction|auto].
  - exfalso. apply (Nw a b X). Qed.
Print Assumptions C49_single.

(** hypotheses met: the five points of C48, with all positions as dominating set *)
Theorem C49_hypotheses_met : exists c, c49_setting (fun l => l) (fun l => l) (fun l => l) (fun l => l) some_spath (@g_nodes point unit) c48_cs (c41_q 1 1) c48_ps c /\
  length (g_nodes c) = 5%nat /\
  evaluate_line_dominating_set (fun l => l) (fun l => l) some_spath (@g_nodes point unit) c48_cs (Qc2R (c41_q 1 1)) c = Err TypeError.
Proof. assert (S : forall c, In c (create_clusters (fun l => l) (fun l => l) c48_cs (c41_q 1 1) c48_ps) -> c49_setting (fun l => l) (fun l => l) (fun l => l) (fun l => l) some_spath (@g_nodes point unit) c48_cs (c41_q 1 1) c48_ps c).
  { intros c I. split; [intros l; apply Permutation_refl|]. split; [intros l; apply Permutation_refl|]. split; [intros l; apply Permutation_refl|]. split; [intros l; apply Permutation_refl|]. split; [apply some_spath_good|].
    split; [intros g W; split; [apply incl_refl|intros x Ix; left; exact Ix]|]. split; [repeat constructor|]. split; [reflexivity|]. split; [repeat constructor|exact I]. }
  assert (Ed : map (@g_nodes point R) (create_clusters (fun l => l) (fun l => l) c48_cs (c41_q 1 1) c48_ps) = [c48_ps]) by (vm_compute; reflexivity).
  destruct (create_clusters (fun l => l) (fun l => l) c48_cs (c41_q 1 1) c48_ps) as [|c cl] eqn:Ec; [discriminate|]. cbn [map] in Ed. injection Ed as Ed _.
  specialize (S c (or_introl eq_refl)). exists c. split; [exact S|]. split; [rewrite Ed; reflexivity|].
  assert (N01 : [c41_q 0 1] <> [c41_q 1 1]). { intros X. assert (Y : eqb [c41_q 0 1] [c41_q 1 1] = false) by (vm_compute; reflexivity). rewrite X in Y. unfold eqb in Y. destruct (eq_dec _ _) in Y; congruence. }
  refine (C49_separated_refuted _ _ _ _ _ _ _ _ _ _ S _ [c41_q 0 1] [c41_q 1 1] _ _ N01); [|rewrite Ed; exact (or_introl eq_refl)|rewrite Ed; exact (or_intror (or_introl eq_refl))].
  intros x y Ix Iy N. rewrite Ed in Ix, Iy. apply Rlt_le. unfold Rdiv. replace (Qc2R (c41_q 1 1) * / 3)%R with (Qc2R (c41_q 1 3)).
  - apply Rnot_le_lt. intros X. apply dist_le_iff in X.
    assert (Y : forallb (fun x => forallb (fun y => eqb x y || negb (dist_le c48_cs x y (c41_q 1 3))) c48_ps) c48_ps = true) by (vm_compute; reflexivity).
      rewrite forallb_forall in Y. specialize (Y x Ix). rewrite forallb_forall in Y. specialize (Y y Iy). rewrite X in Y. cbn in Y. rewrite orb_false_r in Y. unfold eqb in Y. destruct (eq_dec x y); congruence.
  - assert (Z : (c41_q 1 1 = c41_q 1 3 + c41_q 1 3 + c41_q 1 3)%Qc) by (apply Qc_is_canon; vm_compute; reflexivity). rewrite Z, !Qc2R_add. lra. Qed.
Print Assumptions C49_hypotheses_met.

(** also those of [C49_holes_patched], [C49_never_works_refuted] and [C49_duplicates_removed] *)
Definition c49_triangle : dgraph :=
  mk_graph [[c41_q 0 1]; [c41_q 1 1]; [c41_q 2 1]]
    [([c41_q 0 1], [c41_q 2 1], (2, Some 16)); ([c41_q 0 1], [c41_q 1 1], (1, Some 1)); ([c41_q 1 1], [c41_q 2 1], (1, Some 1))]%R.
Lemma c49_diff : [c41_q 0 1] <> [c41_q 1 1] /\ [c41_q 0 1] <> [c41_q 2 1] /\ [c41_q 1 1] <> [c41_q 2 1].
Proof. assert (N : forall x y : point, eqb x y = false -> x <> y) by (intros x y E ->; unfold eqb in E; destruct (eq_dec y y); congruence). repeat split; apply N; vm_compute; reflexivity. Qed.
Lemma c49_in : forall order eorder eo eo2 spath domset cs fs positions c, c49_setting order eorder eo eo2 spath domset cs fs positions c -> incl (g_nodes c) positions.
Proof. intros until c. intros (O1 & O2 & O3 & O4 & _ & _ & B & _ & P & I) x Ix. apply (proj1 (proj1 (C41_partition order eo cs fs positions O1 O3 B P) x)). apply in_concat. exists (g_nodes c). split; auto. apply in_map; auto. Qed.
Theorem C49_more_hypotheses_met :
  (exists c, c49_setting (fun l => l) (fun l => l) (fun l => l) (fun l => l) some_spath (@g_nodes point unit) c48_cs (c41_q 1 1) c48_ps c /\ length (g_nodes c) = 5%nat /\
     (forall x y, In x (g_nodes c) -> In y (g_nodes c) -> x <> y -> (0 < distance c48_cs x y)%R) /\
     (forall a b, In a (g_nodes (reduced_graph (Qc2R (c41_q 1 1)) c)) -> In b (g_nodes (reduced_graph (Qc2R (c41_q 1 1)) c)) -> linked (within c (g_nodes (reduced_graph (Qc2R (c41_q 1 1)) c))) a b)) /\
  wf_graph c49_triangle /\ (forall u v a, In (u, v, a) (g_edges c49_triangle) -> exists w, snd a = Some w /\ (0 <= w)%R) /\
  exists r, remove_duplicate_paths some_spath c49_triangle = Ok r /\ ~ In ([c41_q 0 1], [c41_q 2 1], (2, Some 16)%R) (g_edges r).
Proof. split.
  - destruct C49_hypotheses_met as (c & S & L & _). exists c. split; auto. split; auto. pose proof (c49_facts _ _ _ _ _ _ _ _ _ _ S) as (Fp & Wf & Cn & Ne & Ps & At & Nr & Lp & Ed).
    pose proof (c49_in _ _ _ _ _ _ _ _ _ _ S) as In_ps.
    split.
    + intros x y Ix Iy N. apply In_ps in Ix, Iy. destruct (distance_nonneg c48_cs x y) as [|E]; auto. exfalso. assert (X : dist_le c48_cs x y (c41_q 1 3) = true). { apply dist_le_iff. rewrite <- E. rewrite <- Qc2R_0. apply Qc2R_le. discriminate. }
      assert (Y : forallb (fun x => forallb (fun y => eqb x y || negb (dist_le c48_cs x y (c41_q 1 3))) c48_ps) c48_ps = true) by (vm_compute; reflexivity).
      rewrite forallb_forall in Y. specialize (Y x Ix). rewrite forallb_forall in Y. specialize (Y y Iy). rewrite X in Y. cbn in Y. rewrite orb_false_r in Y. unfold eqb in Y. destruct (eq_dec x y); congruence.
    + assert (All : forall x, In x (g_nodes (reduced_graph (Qc2R (c41_q 1 1)) c)) <-> In x (g_nodes c)) by (intros; apply reduced_nodes; auto).
      intros a b Ia Ib. apply All in Ia, Ib. apply (@linked_mono _ (has_edge c)); auto. intros x y E. split; auto. destruct (wf_ends Wf E). rewrite !All. auto.
  - assert (Wt : wf_graph c49_triangle).
    { destruct c49_diff as (N1 & N2 & N3). constructor; cbn [c49_triangle g_nodes g_edges].
      - repeat constructor; cbn [In]; intuition congruence.
      - intros u v w [E|[E|[E|[]]]]; injection E as <- <- _; cbn [In]; auto.
      - repeat constructor; unfold apart, joins, end1, end2; cbn [fst snd]; vm_compute; reflexivity. }
    assert (Nt : forall u v a, In (u, v, a) (g_edges c49_triangle) -> exists w, snd a = Some w /\ (0 <= w)%R). { cbn [c49_triangle g_edges]. intros u v a [E|[E|[E|[]]]]; injection E as _ _ <-; eexists; (split; [reflexivity|lra]). }
    split; auto. split; auto. destruct (C49_duplicates_removed some_spath c49_triangle some_spath_good Wt Nt) as (r & E & Wr & _ & Ir & Pa & Li). exists r. split; auto. intros J.
    destruct c49_diff as (N1 & N2 & N3). destruct (Pa [c41_q 0 1] [c41_q 2 1] [[c41_q 0 1]; [c41_q 1 1]; [c41_q 2 1]]) as (p & Pp & Wp).
    { exists [[c41_q 1 1]; [c41_q 2 1]]. split; auto. split; [|reflexivity]. cbn. split; [exists (1, Some 1)%R; cbn; auto|]. split; auto. exists (1, Some 1)%R; cbn; auto. }
    pose proof (Li _ _ _ _ J N2 p Pp) as L16.
    assert (W2 : path_weight (weight_graph c49_triangle) [[c41_q 0 1]; [c41_q 1 1]; [c41_q 2 1]] = 2%R).
    { unfold path_weight. cbn [path_edges map fold_right fst snd]. assert (Ww : wf_graph (weight_graph c49_triangle)) by (apply wf_map_attr; auto). unfold edge_weight. rewrite (attr_in _ [c41_q 0 1] [c41_q 1 1] 1%R), (attr_in _ [c41_q 1 1] [c41_q 2 1] 1%R); auto; [lra| |]; cbn; auto. }
    lra. Qed.
Print Assumptions C49_more_hypotheses_met.
