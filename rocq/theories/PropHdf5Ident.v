(** C53: saved identification results. *)
From Verif Require Import Base BaseFacts CoordSys SpecGeom CoordSysFacts Values Hdf5 SpecHdf5 Hdf5Facts CoordSysR Graph SpecGraph GraphFacts Cluster SpecCluster PropCluster Dimension Shape ShapeFacts
  Identify SpecIdentify IdentifyFacts PropIdentify Hdf5Ident SpecHdf5Ident Hdf5IdentFacts.
From Coq Require Import String.
Open Scope list_scope.

Lemma same_degree (g g' : graph point unit) : wf_graph g -> wf_graph g' -> loopless g -> same_graph g g' ->
  (forall u, degree g' u = degree g u) /\ create_degree_count g' = create_degree_count g.
Proof. intros W W' Lo (N & E). assert (Lo' : loopless g') by (intros u X; apply E in X; apply (Lo u X)).
  assert (D : forall u, degree g' u = degree g u).
  { intros u. rewrite !degree_neighbors by auto. apply Permutation_length, NoDup_Permutation; [apply (nodup_neighbors W')|apply (nodup_neighbors W)|]. intros x. rewrite !in_neighbors, E. tauto. }
  split; auto. unfold create_degree_count. rewrite N. rewrite (map_ext _ _ D). reflexivity. Qed.

(** *** A line: the same nodes in the same order, the same edges, the same degree count and
    so the same name.  If no edge joins a node to itself (as for all lines made by the
    identification) the degree of every node is the same too, and counting the degrees of
    the loaded graph gives the same counts. *)
Theorem C53_line : forall elist g dc, lists_edges elist -> wf_graph g ->
  loads_like dec_shape (enc_shape elist (Some (NodalLine g dc))) (fun s => exists g', s = Some (NodalLine g' dc) /\
    g_nodes g' = g_nodes g /\ (forall u v, has_edge g' u v <-> has_edge g u v) /\ wf_graph g' /\
    (loopless g -> (forall u, degree g' u = degree g u) /\ create_degree_count g' = create_degree_count g)).
Proof. intros elist g dc L W t S. destruct (loads_shape elist L (Some (NodalLine g dc)) W t S) as (s & E & H). exists s. split; auto.
  destruct s as [[p|g' dc']|]; try (destruct H; fail). destruct H as ((N & Ed) & W' & ->). exists g'. split; auto. split; auto. split; auto. split; auto.
  intros Lo. apply same_degree; auto. split; auto. Qed.
Print Assumptions C53_line.

(** *** A result keeps its positions (in order), dimension and shape, and a container all its
    results (in order), the coordinate system and the feature size. *)
Theorem C53_result : forall elist r, lists_edges elist -> proper_shape (i_shape r) ->
  loads_like (dec_ident AttributeError) (enc_ident elist r) (fun r' =>
    i_positions r' = i_positions r /\ i_dimension r' = i_dimension r /\ same_opt_shape (i_shape r) (i_shape r')).
Proof. intros elist r L W. exact (loads_ident elist L r W). Qed.
Print Assumptions C53_result.
Theorem C53_container : forall elist c, lists_edges elist -> wf_box (ic_cs c) -> Forall (fun r => proper_shape (i_shape r)) (ic_results c) ->
  loads_like (dec_identc AttributeError) (enc_identc elist c) (same_container c).
Proof. intros elist c L B W. exact (loads_identc elist L c B W). Qed.
Print Assumptions C53_container.

(** what the identification makes can be saved *)
Lemma identified_proper env cs fs m positions out : good_environment cs env -> wf_box cs -> (0 < fs)%Qc -> Forall (is_pos cs) positions ->
  run_from_positions env cs fs m positions = Ok out -> ic_cs out = cs /\ Forall (fun r => proper_shape (i_shape r)) (ic_results out).
Proof. intros GE B Fp P E. unfold run_from_positions in E. destruct (sequence _) as [rs|] eqn:Sq; [|discriminate]. cbn in E. injection E as <-. cbn [ic_results ic_cs]. split; auto.
  apply sequence_spec in Sq. apply Forall_forall. intros r Ir. destruct (in_results _ _ _ _ m rs r Sq Ir) as (c & Ic & Ec).
  destruct (cluster_shape env cs fs positions GE B Fp P c m r Ic Ec) as (_ & _ & Sh). clear - Sh. unfold has_shape in Sh. unfold proper_shape.
  destruct (i_dimension r) as [[|[|]]|]; try (rewrite Sh; exact I).
  - destruct Sh as (a & _ & ->). exact I.
  - destruct m; try (rewrite Sh; exact I); destruct Sh as (g & -> & A & _); apply A. Qed.

(** *** Every identification result can be saved and loaded again. *)
Theorem C53_identified : forall elist env cs fs m positions out, lists_edges elist -> good_environment cs env -> wf_box cs -> (0 < fs)%Qc -> Forall (is_pos cs) positions ->
  run_from_positions env cs fs m positions = Ok out ->
  loads_like (dec_identc AttributeError) (enc_identc elist out) (same_container out).
Proof. intros elist env cs fs m ps out L GE B Fp P E. destruct (identified_proper env cs fs m ps out GE B Fp P E) as (Ec & W). apply loads_identc; auto. rewrite Ec. auto. Qed.
Print Assumptions C53_identified.

(** *** Files of the older format (the dimension a plain number, the positions a list of
    lists) can still be loaded. *)
Theorem C53_older_format : forall elist r n, lists_edges elist -> proper_shape (i_shape r) -> i_dimension r = Some n ->
  loads_like (dec_ident AttributeError)
    (TGroup "nodefinder.identification_result"
      [ (KName "dimension", enc_nat n); (KName "positions", enc_list (enc_list enc_num_obj) (i_positions r)); (KName "shape", enc_shape elist (i_shape r)) ])
    (same_result r).
Proof. intros elist r n L W D t S. unfold dec_ident. fld S "shape"%string. destruct (loads_shape elist L _ W _ S0) as (s & -> & Hs). cbn [bind].
  fld S "dimension"%string. unfold dec_dimension. apply same_leaf in S1; [|exact I]. subst u0. cbn [dataset_or contents enc_nat]. change (TInt (Z.of_nat n)) with (enc_nat n). rewrite dec_enc_nat. cbn [bind].
  fld S "positions"%string. unfold dec_result_positions.
  assert (Lp : loads_as (dec_list (dec_list (dec_obj dec_num))) (enc_list (enc_list enc_num_obj) (i_positions r)) (i_positions r)).
  { apply loads_list. clear. induction (i_positions r) as [|p l IH]; constructor; auto. apply loads_list. clear. induction p; constructor; auto. apply loads_num_obj. }
  pose proof (Lp _ S1) as X. unfold enc_list at 1 in S1. rewrite (dataset_group _ _ _ _ _ _ S1), X. cbn [bind]. eexists. split; [reflexivity|]. repeat split; auto. Qed.
Print Assumptions C53_older_format.

(** *** Finding: only AttributeError is caught, so with a version of h5py that raises another
    exception for [group[()]] (TypeError since version 3) nothing that was saved can be
    loaded, unless the container is empty. *)
Theorem C53_new_h5py_refuted : forall elist r c, lists_edges elist ->
  (proper_shape (i_shape r) -> fails_with (dec_ident TypeError) (enc_ident elist r) TypeError) /\
  (wf_box (ic_cs c) -> Forall (fun r => proper_shape (i_shape r)) (ic_results c) -> ic_results c <> [] ->
   fails_with (dec_identc TypeError) (enc_identc elist c) TypeError).
Proof. intros elist r c L. split; intros; [apply ident_fails; auto; discriminate|apply identc_fails; auto; discriminate]. Qed.
Print Assumptions C53_new_h5py_refuted.

(** hypotheses met: the pairs of ends list the edges; the result of C51_hypotheses_met (a line
    and a point) and any of its files *)
Lemma ends_list_edges : lists_edges (fun g => map fst (g_edges g)).
Proof. intros g u v. unfold has_edge. rewrite !in_map_iff. split.
  - intros ([] & [X|X]); [left|right]; eexists; (split; [|exact X]); reflexivity.
  - intros [([[a b] []] & E & X)|([[a b] []] & E & X)]; cbn in E; injection E as -> ->; exists tt; auto. Qed.
Theorem C53_hypotheses_met : exists elist out r1 r2 c, lists_edges elist /\ run_from_positions plain_env c41_cs (c41_q 1 5) MBallistic c41_ps = Ok out /\
  ic_results out = [r1; r2] /\ (exists g dc, i_shape r1 = Some (NodalLine g dc)) /\ (exists p, i_shape r2 = Some (NodalPoint p)) /\
  dec_identc AttributeError (enc_identc elist out) = Ok c /\ same_container out c /\ dec_identc TypeError (enc_identc elist out) = Err TypeError.
Proof. destruct C51_hypotheses_met as (GE & B & P & out & r1 & r2 & E & R & _ & _ & (g & S1) & _ & _ & S2).
  exists (fun g => map fst (g_edges g)), out, r1, r2. assert (Fp : (0 < c41_q 1 5)%Qc) by reflexivity.
  destruct (C53_identified _ plain_env c41_cs _ MBallistic c41_ps out ends_list_edges GE B Fp P E _ (same_refl _)) as (c & Ec & Hc). exists c.
  split; [exact ends_list_edges|]. split; [exact E|]. split; [exact R|]. split; [eauto|]. split; [eauto|]. split; [exact Ec|]. split; [exact Hc|].
  destruct (identified_proper plain_env c41_cs _ MBallistic c41_ps out GE B Fp P E) as (Ecs & W).
  apply (proj2 (C53_new_h5py_refuted _ r1 out ends_list_edges)); [rewrite Ecs; exact B|exact W|rewrite R; discriminate|apply same_refl]. Qed.
Print Assumptions C53_hypotheses_met.
