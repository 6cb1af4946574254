(** Lemmas about the identification step. *)
From Verif Require Import Base BaseFacts CoordSys SpecGeom CoordSysFacts GeomCombined CoordSysR Graph SpecGraph GraphFacts Paths SpecPath PathFacts Cluster SpecCluster ClusterFacts PropCluster
  Dimension SpecDim VolumeFacts DrawFacts DimensionFacts LocalDim PropDim Ballistic BallisticFacts PropBallistic ShortestPath ShortestPathFacts PropShortest DomSet SpecDomSet DomSetFacts PropDomSet Shape Identify SpecIdentify.
From Coq Require Import Reals Psatz.
From Coq Require Import Lra.
Open Scope list_scope.

Lemma sequence_spec {A B} (f : A -> res B) l rs : sequence (map f l) = Ok rs -> Forall2 (fun a r => f a = Ok r) l rs.
Proof. revert rs. induction l as [|a l IH]; cbn; intros rs H; [injection H as <-; constructor|]. destruct (f a) as [b|] eqn:E; [|discriminate]. cbn in H.
  destruct (sequence (map f l)) as [bs|]; [|discriminate]. injection H as <-. constructor; auto. Qed.
Lemma sequence_total {A B} (f : A -> res B) l : (forall a, In a l -> exists b, f a = Ok b) -> exists rs, sequence (map f l) = Ok rs.
Proof. induction l as [|a l IH]; cbn; intros H; [eauto|]. destruct (H a (or_introl eq_refl)) as (b & ->). cbn. destruct IH as (bs & ->); [auto|]. cbn. eauto. Qed.
Lemma sequence_err {A B} (f : A -> res B) l e : sequence (map f l) = Err e -> exists a, In a l /\ f a = Err e.
Proof. induction l as [|a l IH]; cbn; intros H; [discriminate|]. destruct (f a) as [b|e'] eqn:E; cbn in H; [|injection H as <-; eauto].
  destruct (sequence (map f l)) as [bs|] eqn:S; [discriminate|]. destruct IH as (a' & I & Ea); auto. eauto. Qed.

(** a cluster of dimension 1 has positions at different places *)
Lemma dimension_1_spread W order rs cs (g : graph point W) fs md m me : any_order order -> wf_box cs -> wf_graph g -> Forall (is_pos cs) (g_nodes g) -> (0 <= fs)%R ->
  (forall p k, good_rng (rs p k) (neighbors g p) k) -> calculate_dimension order rs cs g fs md (Some m) me = Ok (Some 1%nat) ->
  exists u v, has_edge g u v /\ distance cs u v <> 0%R.
Proof. intros O B Wf P Fs Gr H. destruct (reported _ _ _ _ _ _ _ _ _ _ O H) as (p & Ip & G). unfold get_dimension in G.
  apply get_dimension_from_spec in G as (_ & I2 & _); [|lia]. destruct (I2 1%nat) as (used & E); [lia|].
  destruct (existsb (fun q => negb (eqb (dist_sq cs q p) 0%Qc)) (neighbors g p)) eqn:X.
  - apply existsb_exists in X as (q & Iq & X). exists q, p. split; [apply has_edge_sym, in_neighbors; auto|]. rewrite <- dist_sq_0. apply negb_true_iff, eqb_false in X. auto.
  - exfalso. assert (true = false); [|discriminate]. eapply (has_dimension_zero cs g fs Wf Fs _ p 1 _ true used (Gr p 1%nat) E). intros vs L F. destruct vs as [|v [|]]; try discriminate.
    destruct (F v (or_introl eq_refl)) as (q & Eq & C). rewrite det1. destruct (wf_ends Wf Eq) as (Iq & _). rewrite Forall_forall in P.
    destruct (connecting_vector_spec cs q p B (P q Iq) (P p Ip)) as (v' & Ev & _ & _ & Lv & _). rewrite C in Ev. injection Ev as <-. rewrite dot_len_sq, Lv.
    destruct (eq_dec (dist_sq cs q p) 0%Qc) as [|N]; auto. exfalso. assert (Y : existsb (fun q => negb (eqb (dist_sq cs q p) 0%Qc)) (neighbors g p) = true); [|congruence].
    apply existsb_exists. exists q. split; [apply in_neighbors, has_edge_sym; auto|]. apply negb_true_iff, eqb_false. auto. Qed.

Lemma map_attr_edge {A W W'} `{EqDec A} (f : W -> W') (g : graph A W) u v : has_edge (map_attr f g) u v <-> has_edge g u v.
Proof. unfold has_edge, map_attr. cbn. split.
  - intros (w & [I|I]); apply in_map_iff in I as ([[a b] w'] & E & I); injection E as -> -> _; eauto.
  - intros (w & [I|I]); exists (f w); [left|right]; apply in_map_iff; eexists; (split; [|exact I]); auto. Qed.

Section Run.
  Variables (env : environment) (cs : coordsys) (fs : Qc) (positions : list point).
  Hypothesis GE : good_environment cs env.
  Hypothesis B : wf_box cs.
  Hypothesis Fp : (0 < fs)%Qc.
  Hypothesis P : Forall (is_pos cs) positions.
  Notation clusters := (create_clusters (e_order env) (e_edges env) cs fs positions).

  Lemma fs_pos : (0 < Qc2R fs)%R.
  Proof. rewrite <- Qc2R_0. apply Qc2R_lt. auto. Qed.
  Lemma cluster_pos c : In c clusters -> Forall (is_pos cs) (g_nodes c).
  Proof. intros I. apply Forall_forall. intros z Iz. apply (proj1 (Forall_forall _ _) P). apply (proj1 (C41_partition _ _ cs fs positions (ge_order _ _ GE) (ge_edges _ _ GE) B P)).
    apply in_concat. exists (g_nodes c). split; auto. apply in_map; auto. Qed.
  Lemma cluster_ne c : In c clusters -> g_nodes c <> [].
  Proof. apply (C41_partition _ _ cs fs positions (ge_order _ _ GE) (ge_edges _ _ GE) B P). Qed.
  Lemma cluster_edges c : In c clusters -> wf_graph c /\ loopless c /\
    (forall x y, In x (g_nodes c) -> In y (g_nodes c) -> (has_edge c x y <-> x <> y /\ (distance cs x y <= Qc2R fs)%R)).
  Proof. intros I. destruct (C43_edges _ _ cs fs positions c (ge_order _ _ GE) (ge_edges _ _ GE) B P I) as (W & L & E & _). auto. Qed.

  Lemma dimension_total c : In c clusters -> exists d, cluster_dimension env cs fs c = Ok d.
  Proof. intros I. destruct (cluster_edges c I) as (W & _). unfold cluster_dimension.
    apply C44_no_exception; auto; try lia; [apply (ge_shuffle _ _ GE)|apply cluster_pos; auto|apply cluster_ne; auto|apply (ge_rng _ _ GE); auto]. Qed.

  Lemma part_along c (r : graph point unit) : In c clusters -> wf_graph r -> part_of r c -> dominates c (g_nodes r) -> line_along cs fs (g_nodes c) r.
  Proof. intros I Wr (Pn & Pe) D. destruct (cluster_edges c I) as (W & Lo & E).
    assert (Near : forall x, In x (g_nodes c) -> exists y, In y (g_nodes r) /\ (x = y \/ (distance cs x y <= Qc2R fs)%R)).
    { intros x Hx. destruct (D x Hx) as [Hr|(y & Hy & Ey)]; [exists x; auto|]. exists y. split; auto. right. apply E in Ey; auto. tauto. }
    split; auto. split; [|split; auto; split; auto].
    - destruct (g_nodes c) as [|x l] eqn:En; [exfalso; apply (cluster_ne c I); auto|]. destruct (Near x) as (y & Hy & _); [left; auto|]. intros X. rewrite X in Hy. destruct Hy.
    - intros u v H. assert (Hc := Pe u v H). destruct (wf_ends W Hc). apply E; auto. Qed.

  (** the line methods on a cluster of dimension 1 *)
  Lemma line_outcome c m : In c clusters -> cluster_dimension env cs fs c = Ok (Some 1%nat) ->
    match m with
    | MShortestPath => exists r, line_graph env cs fs m c = Ok r /\ line_along cs fs (g_nodes c) r /\ connected r
    | MBallistic => exists r, line_graph env cs fs m c = Ok r /\ line_along cs fs (g_nodes c) r /\ (forall u v, has_edge r u v -> distance cs u v <> 0%R)
    | MDominatingSet => (exists r, line_graph env cs fs m c = Ok r /\ line_along cs fs (g_nodes c) r /\ connected r) \/
        line_graph env cs fs m c = Err TypeError \/ line_graph env cs fs m c = Err NetworkXNoPath
    | MOther => line_graph env cs fs m c = Err ValueError
    end.
  Proof. intros I D. destruct (cluster_edges c I) as (W & Lo & Ed). destruct m; cbn [line_graph].
    - destruct (C48_cluster _ _ (e_order env) (e_spath env) cs fs positions c (ge_order _ _ GE) (ge_edges _ _ GE) (ge_order _ _ GE) (ge_spath _ _ GE) B Fp P I) as (r & E & Wr & Pr & Cr & Dr & _).
      exists r. split; auto. split; auto. apply part_along; auto.
    - assert (S : c49_setting (e_order env) (e_order env) (e_edges env) (e_edges2 env) (e_spath env) (e_domset env) cs fs positions c).
      { destruct GE. unfold c49_setting. tauto. }
      pose proof (C49_returned _ _ _ _ _ _ _ _ _ _ S) as X. destruct (evaluate_line_dominating_set (e_order env) (e_edges2 env) (e_spath env) (e_domset env) cs (Qc2R fs) c) as [r|e]; cbn [bind].
      + left. destruct X as (Wr & Pr & Cr & _ & Nr). eexists. split; [reflexivity|].
        assert (Wm : wf_graph (map_attr (fun _ : R * option R => tt) r)) by (apply wf_map_attr; auto).
        split.
        * apply part_along; auto.
          -- split; [apply Pr|]. intros u v H. apply map_attr_edge in H. apply Pr; auto.
          -- intros x Hx. destruct (Nr x Hx) as [Hr|(y & Hy & Ey & _)]; [left; auto|right; eauto].
        * intros u v Hu Hv. destruct (Cr u v Hu Hv) as (p & Fo & La). exists p. split; auto. clear - Fo. revert u Fo. induction p as [|a p IH]; cbn; auto. intros u (E & F). split; [apply map_attr_edge; auto|auto].
      + right. destruct X as [-> | ->]; auto.
    - assert (X : exists u v, has_edge c u v /\ distance cs u v <> 0%R).
      { apply (dimension_1_spread _ (e_shuffle env c) (e_rng env c) cs c (Qc2R fs) 3 5 (Some 10%nat) (ge_shuffle _ _ GE c) B W (cluster_pos c I)); [pose proof fs_pos; lra|intros p k; apply (ge_rng _ _ GE c W)|exact D]. }
      destruct X as (u & v & E & Nz).
      destruct (wf_ends W E) as (Iu & Iv).
      destruct (C47_cluster _ _ (e_order env) cs fs positions c u v (ge_order _ _ GE) (ge_edges _ _ GE) (ge_order _ _ GE) B P I Iu Iv Nz) as (r & Er & Wr & Pr & Dr & Lr).
      exists r. split; auto. split; [apply part_along; auto|]. intros a b H. pose proof (Lr a b H). lra.
    - reflexivity. Qed.

  Lemma average_total ps : Forall (is_pos cs) ps -> ps <> [] -> exists a, average cs ps = Ok a.
  Proof. intros F N. destruct (periodic cs) eqn:E.
    - destruct ps as [|o ps]; [congruence|]. destruct (average_periodic cs o ps E B F) as (a & _ & _ & Ea & _). eauto.
    - destruct (average_nonper cs ps E F N) as (a & Ea & _). eauto. Qed.

  (** the results belong to the clusters, one for one *)
  Lemma results_positions m rs : Forall2 (fun c r => identify_cluster env cs fs m c = Ok r) clusters rs -> map i_positions rs = map (@g_nodes point R) clusters.
  Proof. generalize clusters. intros l F. induction F as [|c r l rs E F IH]; cbn; auto. f_equal; auto. unfold identify_cluster in E.
    destruct (cluster_dimension env cs fs c) as [d|]; [|discriminate]. cbn in E. destruct (evaluate_cluster env cs fs m c d) as [s|]; [|discriminate]. injection E as <-. auto. Qed.
  Lemma results_account m rs : Forall2 (fun c r => identify_cluster env cs fs m c = Ok r) clusters rs -> accounts_for cs fs positions rs.
  Proof. intros F. pose proof (results_positions m rs F) as E. destruct (C41_partition _ _ cs fs positions (ge_order _ _ GE) (ge_edges _ _ GE) B P) as (M & N & Ne).
    unfold accounts_for. rewrite E. split; auto. split; auto. split.
    - intros r Ir. apply (in_map i_positions) in Ir. rewrite E in Ir. apply in_map_iff in Ir as (c & <- & Ic). auto.
    - intros x y Hx. rewrite <- (C42_chains _ _ cs fs positions x y (ge_order _ _ GE) (ge_edges _ _ GE) B P Hx). split.
      + intros (r & Ir & Ix & Iy). apply (in_map i_positions) in Ir. rewrite E in Ir. apply in_map_iff in Ir as (c & Ec & Ic). exists c. rewrite Ec. auto.
      + intros (c & Ic & Ix & Iy). apply (in_map (@g_nodes point R)) in Ic. rewrite <- E in Ic. apply in_map_iff in Ic as (r & Er & Ir). exists r. rewrite Er. auto. Qed.
  Lemma in_results m rs r : Forall2 (fun c r => identify_cluster env cs fs m c = Ok r) clusters rs -> In r rs -> exists c, In c clusters /\ identify_cluster env cs fs m c = Ok r.
  Proof. intros F. induction F as [|c r' l rs' E F IH]; [intros []|]. intros [<- |I]; [exists c; split; [left|]; auto|]. destruct IH as (c' & Ic & Ec); auto. exists c'. split; [right|]; auto. Qed.

  (** one cluster *)
  Lemma cluster_outcome c m : In c clusters ->
    (exists r, identify_cluster env cs fs m c = Ok r) \/ (m = MDominatingSet /\ (identify_cluster env cs fs m c = Err TypeError \/ identify_cluster env cs fs m c = Err NetworkXNoPath)).
  Proof. intros I. unfold identify_cluster. destruct (dimension_total c I) as (d & Ed). rewrite Ed. cbn [bind]. destruct d as [[|[|d]]|]; cbn [evaluate_cluster bind].
    - left. unfold evaluate_point. destruct (average_total _ (cluster_pos c I) (cluster_ne c I)) as (a & ->). cbn. eauto.
    - pose proof (line_outcome c m I Ed) as L. unfold evaluate_line. destruct m.
      + destruct L as (r & -> & _). cbn. eauto.
      + destruct L as [(r & -> & _)|[-> | ->]]; cbn; eauto.
      + destruct L as (r & -> & _). cbn. eauto.
      + rewrite L. cbn. eauto.
    - eauto.
    - eauto. Qed.
  Lemma cluster_shape c m r : In c clusters -> identify_cluster env cs fs m c = Ok r ->
    i_positions r = g_nodes c /\ (forall d, i_dimension r = Some d -> (d <= 3)%nat /\ (d <= dim cs)%nat) /\
    has_shape cs r (fun r => match m with
      | MOther => i_shape r = None
      | MBallistic => exists g, i_shape r = Some (NodalLine g (create_degree_count g)) /\ line_along cs fs (i_positions r) g /\ forall u v, has_edge g u v -> distance cs u v <> 0%R
      | _ => exists g, i_shape r = Some (NodalLine g (create_degree_count g)) /\ line_along cs fs (i_positions r) g /\ connected g end).
  Proof. intros I. unfold identify_cluster. destruct (dimension_total c I) as (d & Ed). rewrite Ed. cbn [bind]. intros H. destruct (evaluate_cluster env cs fs m c d) as [s|] eqn:Es; [|discriminate]. cbn [bind] in H.
    injection H as <-. cbn [i_positions i_dimension i_shape]. split; auto. split.
    { intros d' ->. unfold cluster_dimension in Ed. destruct (C44_range _ _ _ cs c _ _ _ _ d' (ge_shuffle _ _ GE c) (cluster_pos c I) Ed) as (_ & X & Y). auto. }
    unfold has_shape. cbn [i_dimension]. destruct d as [[|[|d]]|]; cbn [evaluate_cluster] in Es.
    - unfold evaluate_point in Es. destruct (average cs (g_nodes c)) as [a|] eqn:Ea; [|discriminate]. cbn in Es. injection Es as <-. cbn. eauto.
    - pose proof (line_outcome c m I Ed) as L. unfold evaluate_line in Es. cbn [i_shape i_positions]. destruct m.
      + destruct L as (r & E & A & X). rewrite E in Es. cbn in Es. injection Es as <-. eauto.
      + destruct L as [(r & E & A & X)|[E|E]]; rewrite E in Es; cbn in Es; try discriminate. injection Es as <-. eauto.
      + destruct L as (r & E & A & X). rewrite E in Es. cbn in Es. injection Es as <-. eauto.
      + rewrite L in Es. cbn in Es. injection Es as <-. auto.
    - injection Es as <-. auto.
    - injection Es as <-. auto. Qed.
End Run.
