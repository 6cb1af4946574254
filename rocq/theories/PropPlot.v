(** C52, C58: plots. *)
From Verif Require Import Base BaseFacts CoordSys SpecGeom CoordSysFacts GeomCombined CellList Values Container SpecContainer ContainerFacts ContainerHist PropContainer Hdf5 CoordSysR Graph SpecGraph GraphFacts Paths SpecPath Cluster SpecCluster
  Dimension SpecDim LocalDim PropDim DomSet SpecDomSet Shape SpecShape ShapeFacts LineFacts Identify SpecIdentify IdentifyFacts PropIdentify Plot SpecPlot PlotFacts.
From Coq Require Import Reals Psatz.
From Coq Require Import Lra.
Open Scope list_scope.

Lemma qc2R_2 : Qc2R (qc 2) = 2%R.
Proof. replace (qc 2) with (1 + 1)%Qc by (apply Qc_is_canon; reflexivity). rewrite Qc2R_add. replace (Qc2R 1%Qc) with 1%R; [lra|]. unfold Qc2R. cbn. unfold Q2R. cbn. lra. Qed.
Lemma longer_spec fs u v : longer_than fs u v = false <-> within fs u v.
Proof. destruct fs as [f|]; cbn [longer_than within]; [|tauto]. rewrite negb_false_iff, andb_true_iff. unfold euclid.
  rewrite sqrt_le_iff by apply Qc2R_euclid_nonneg. rewrite !leb_spec. rewrite (Qc2R_le 0%Qc), (Qc2R_le (euclid_sq u v)), !Qc2R_mul, Qc2R_0, qc2R_2. tauto. Qed.
Lemma longer_sym fs u v : longer_than fs u v = longer_than fs v u.
Proof. destruct fs as [f|]; cbn; auto. rewrite euclid_sq_sym. auto. Qed.

(** the decomposition terminates, shows every short edge exactly once and nothing else,
    whatever the order in which the neighbours of a node are listed *)
Theorem C52_paths : forall norder fs (g : graph point unit), (forall h u, any_order (norder h u)) -> wf_graph g ->
  exists paths, get_graph_paths norder (longer_than fs) g = Ok paths /\ shows fs g paths /\ (paths = [] <-> g_edges g = []).
Proof. intros norder fs g NO Wf. destruct (paths_spec norder NO (longer_than fs) (longer_sym fs) g Wf) as (paths & R & Em & Ne & Nd & T).
  exists paths. split; auto. split; auto. unfold shows. split; [|split; [|split; auto]].
  - intros u v E S. rewrite T. unfold open_edge. rewrite (proj2 (adj_spec g u v) E), (proj2 (longer_spec fs u v) S). reflexivity.
  - intros u v. rewrite T. unfold open_edge. destruct (adj g u v) eqn:E; cbn; [|congruence]. destruct (longer_than fs u v) eqn:L; cbn; [congruence|]. intros _. split; [apply adj_spec; auto|apply longer_spec; auto]. Qed.
Print Assumptions C52_paths.

(** a line of which no step is too long is drawn as one path from end to end, a ring as one closed path *)
Theorem C52_open_line : forall norder fs (g : graph point unit) p, (forall h u, any_order (norder h u)) -> wf_graph g -> is_line g p -> (forall u v, has_edge g u v -> within fs u v) ->
  get_graph_paths norder (longer_than fs) g = Ok [p] \/ get_graph_paths norder (longer_than fs) g = Ok [rev p].
Proof. intros norder fs g p NO Wf L S. apply paths_line; auto; [apply longer_sym|]. intros u v E. apply longer_spec. auto. Qed.
Print Assumptions C52_open_line.
Theorem C52_closed_loop : forall norder fs (g : graph point unit) p, (forall h u, any_order (norder h u)) -> wf_graph g -> is_ring g p -> (forall u v, has_edge g u v -> within fs u v) ->
  exists x q, get_graph_paths norder (longer_than fs) g = Ok [x :: q ++ [x]] /\ is_ring g (x :: q).
Proof. intros norder fs g p NO Wf L S. eapply paths_ring; eauto; [apply longer_sym|]. intros u v E. apply longer_spec. auto. Qed.
Print Assumptions C52_closed_loop.

(** Which edges are too long: in a periodic box with sides of more than three feature
    sizes, exactly those that pass across the boundary, i.e. whose connecting vector is not
    simply the difference of the positions. *)
Lemma coord_euclid p : forall q i, length p = length q -> (i < length p)%nat -> ((nth i q 0 - nth i p 0) * (nth i q 0 - nth i p 0) <= euclid_sq p q)%Qc.
Proof. induction p as [|x p IH]; intros [|y q] i L Li; cbn in *; try lia. destruct i as [|i].
  - pose proof (euclid_sq_nonneg p q). set (e := euclid_sq p q) in *. clearbody e. set (d := ((y - x) * (y - x))%Qc) in *. clearbody d. qlra.
  - specialize (IH q i ltac:(lia) ltac:(lia)). pose proof (sq_nonneg (y - x)). set (e := euclid_sq p q) in *. clearbody e. set (d := ((y - x) * (y - x))%Qc) in *. clearbody d.
    set (m := ((nth i q 0 - nth i p 0) * (nth i q 0 - nth i p 0))%Qc) in *. clearbody m. qlra. Qed.
Lemma shifted_far ls ks p q : shifted ls ks p q -> Forall (fun l => fst l < snd l)%Qc ls -> q = p \/ exists i l, In l ls /\ (i < length p)%nat /\ (snd l - fst l <= qabs (nth i q 0 - nth i p 0))%Qc.
Proof. induction 1 as [|lo hi ls k ks x p q S IH]; intros B; auto. inversion B as [|? ? B1 B2]; subst. destruct (Z.eq_dec k 0) as [-> |Nk].
  - rewrite qc_0. destruct (IH B2) as [-> |(i & l0 & I1 & I2 & I3)]; [left; f_equal; ring|]. right. exists (Datatypes.S i), l0. split; [right; auto|]. split; [cbn; lia|]. exact I3.
  - right. exists 0%nat, (lo, hi). split; [left; auto|]. split; [cbn; lia|]. cbn [nth fst snd] in *. replace (x + qc k * (hi - lo) - x)%Qc with (qc k * (hi - lo))%Qc by ring.
    assert (D : (0 < hi - lo)%Qc) by qlra. set (d := (hi - lo)%Qc) in *. clearbody d. clear - Nk D.
    assert (K : (1 <= qc k \/ qc k <= - (1))%Qc). { destruct (Z_lt_le_dec k 0); [right; change (- (1))%Qc with (- qc 1)%Qc; rewrite <- qc_opp; apply qc_le; lia|left; rewrite <- qc_1; apply qc_le; lia]. }
    set (z := qc k) in *. clearbody z. destruct (qabs_cases (z * d)) as [[Hs ->]|[Hs ->]]; destruct K; qnra. Qed.
Theorem C52_cut_at_boundary : forall cs fs u v, wf_box cs -> is_pos cs u -> is_pos cs v -> (0 <= fs)%Qc -> Forall (fun l => (qc 3 * fs < snd l - fst l)%Qc) (limits cs) ->
  (distance cs u v <= Qc2R fs)%R ->
  (within (Some fs) u v <-> connecting_vector cs u v = Ok (vsub v u)) /\
  (within (Some fs) u v -> euclid u v = distance cs u v).
Proof. intros cs fs u v B Pu Pv Fp Sz D. destruct (connecting_vector_spec cs u v B Pu Pv) as (w & Ew & Lw & Lat & Len & _). unfold is_pos in *.
  assert (D' : (dist_sq cs u v <= fs * fs)%Qc). { unfold distance in D. apply sqrt_le_iff in D as (_ & D); [|apply Qc2R_dist_nonneg]. apply Qc2R_le. rewrite Qc2R_mul. exact D. }
  assert (Dir : connecting_vector cs u v = Ok (vsub v u) -> euclid u v = distance cs u v).
  { intros E. rewrite Ew in E. injection E as ->. unfold euclid, distance. rewrite <- Len, len_sq_vsub by congruence. reflexivity. }
  assert (Far : (vadd u w = v \/ exists i l, In l (limits cs) /\ (i < length v)%nat /\ (snd l - fst l <= qabs (nth i (vadd u w) 0 - nth i v 0))%Qc)).
  { destruct (periodic cs); [|auto]. destruct Lat as (ks & Sh). destruct (shifted_far _ _ _ _ Sh) as [E|X]; auto. }
  assert (Iff : within (Some fs) u v <-> connecting_vector cs u v = Ok (vsub v u)).
  { split.
    - intros Wi. destruct Far as [E|(i & l & Il & Li & Ge)].
      + rewrite Ew. f_equal. rewrite <- E. clear - Pu Lw. assert (L : length u = length w) by congruence. clear - L. revert w L. induction u as [|x u IH]; intros [|y w] L; cbn in *; try lia; auto. f_equal; [ring|]. apply IH. lia.
      + exfalso. cbn in Wi. unfold euclid in Wi. apply sqrt_le_iff in Wi as (_ & Wi); [|apply Qc2R_euclid_nonneg]. rewrite <- qc2R_2, <- Qc2R_mul, <- Qc2R_mul in Wi. apply Qc2R_le in Wi.
        assert (Li' : (i < length u)%nat) by congruence. pose proof (coord_euclid u v i ltac:(congruence) Li') as C.
        assert (Cw : (nth i w 0 * nth i w 0 <= len_sq w)%Qc). { unfold len_sq. pose proof (coord_euclid (repeat 0%Qc (length w)) w i (repeat_length _ _) ltac:(rewrite repeat_length; congruence)) as X. rewrite nth_repeat in X. replace (nth i w 0 - 0)%Qc with (nth i w 0)%Qc in X by ring. exact X. }
        rewrite Len in Cw. rewrite Forall_forall in Sz. specialize (Sz l Il).
        assert (Ev : nth i (vadd u w) 0 = (nth i u 0 + nth i w 0)%Qc). { clear - Li' Pu Lw. assert (L : length u = length w) by congruence. clear - L Li'. revert w i L Li'. induction u as [|x u IH]; intros [|y w] [|i] L Li; cbn in *; try lia; auto. apply IH; lia. }
        rewrite Ev in Ge. set (a := nth i u 0%Qc) in *. set (b := nth i w 0%Qc) in *. set (c := nth i v 0%Qc) in *. clearbody a b c. set (d := (snd l - fst l)%Qc) in *. clearbody d.
        replace (qc 3) with (1 + 1 + 1)%Qc in Sz by (apply Qc_is_canon; reflexivity). replace (qc 2) with (1 + 1)%Qc in Wi by (apply Qc_is_canon; reflexivity).
        assert (Bb : (- fs <= b /\ b <= fs)%Qc). { assert (X : (b * b <= fs * fs)%Qc) by (eapply Qcle_trans; eauto). clear - X Fp. split; apply Qcnot_lt_le; intros Y; apply (Qclt_not_le _ _) with (2 := X); qnra. }
        assert (Cc : ((c - a) * (c - a) <= (1 + 1) * fs * ((1 + 1) * fs))%Qc) by (eapply Qcle_trans; eauto).
        assert (Bc : (- ((1 + 1) * fs) <= c - a /\ c - a <= (1 + 1) * fs)%Qc). { set (t := (c - a)%Qc) in *. clearbody t. set (s := ((1 + 1) * fs)%Qc) in *. assert (Sp : (0 <= s)%Qc) by (unfold s; qlra). clearbody s. clear - Cc Sp. split; apply Qcnot_lt_le; intros Y; apply (Qclt_not_le _ _) with (2 := Cc); qnra. }
        destruct (qabs_cases (a + b - c)) as [[_ E]|[_ E]]; rewrite E in Ge; clear - Ge Bb Bc Sz Fp; destruct Bb, Bc; qlra.
    - intros E. cbn. rewrite (Dir E). apply Rle_trans with (1 := D). assert (0 <= Qc2R fs)%R by (rewrite <- Qc2R_0; apply Qc2R_le; auto). lra. }
  split; auto. intros Wi. apply Dir, Iff, Wi. Qed.
Print Assumptions C52_cut_at_boundary.

(** ** Plots of identification results *)
Lemma plot_shape_ok norder fs r : (forall h u, any_order (norder h u)) -> i_positions r <> [] ->
  (forall g c, i_shape r = Some (NodalLine g c) -> wf_graph g /\ g_nodes g <> []) -> exists ds, plot_shape norder fs r = Ok ds /\ shown fs r ds.
Proof. intros NO Ne G. unfold plot_shape, shown. destruct (i_shape r) as [[p|g c]|].
  - eexists. split; reflexivity.
  - destruct (G g c eq_refl) as (Wf & Nn). destruct (C52_paths norder (Some fs) g NO Wf) as (paths & R & Sh & Em). unfold plot_line. rewrite R. cbn [bind]. destruct paths as [|p paths].
    + rewrite (proj1 Em eq_refl). cbn. destruct (g_nodes g); [congruence|]. eexists. split; reflexivity.
    + eexists. split; [reflexivity|]. destruct (g_edges g) as [|e es]; [exfalso; discriminate (proj2 Em eq_refl)|]. cbn [length Nat.eqb]. exists (p :: paths). auto.
  - destruct (i_positions r); [congruence|]. eexists. split; reflexivity. Qed.
Theorem C52_result : forall norder c, (forall h u, any_order (norder h u)) ->
  (forall r, In r (ic_results c) -> i_positions r <> [] /\ forall g n, i_shape r = Some (NodalLine g n) -> wf_graph g /\ g_nodes g <> []) ->
  if ((dim (ic_cs c) =? 2) || (dim (ic_cs c) =? 3))%nat
  then exists dss, plot_identification norder c = Ok (concat dss) /\ Forall2 (shown (ic_feature_size c)) (ic_results c) dss
  else plot_identification norder c = Err AssertionError.
Proof. intros norder c NO G. unfold plot_identification, setup_plot, dim in *. rewrite orb_comm. destruct (_ || _)%bool; [|reflexivity]. cbn [bind].
  assert (X : exists dss, sequence (map (plot_shape norder (ic_feature_size c)) (ic_results c)) = Ok dss /\ Forall2 (shown (ic_feature_size c)) (ic_results c) dss).
  { revert G. generalize (ic_results c) as rs. induction rs as [|r rs IH]; intros G; [exists []; split; constructor|]. destruct (G r (or_introl eq_refl)) as (Ne & Gr).
    destruct (plot_shape_ok norder (ic_feature_size c) r NO Ne Gr) as (ds & E & Sh). destruct IH as (dss & E' & F); [intros r' Ir; apply G; right; auto|].
    exists (ds :: dss). cbn [map sequence]. rewrite E. cbn [bind]. rewrite E'. split; auto. }
  destruct X as (dss & E & F). exists dss. rewrite E. auto. Qed.
Print Assumptions C52_result.

(** everything that identify.run returns in two or three dimensions can be plotted *)
Theorem C52_identified : forall norder env cs fs m positions out, (forall h u, any_order (norder h u)) -> good_environment cs env -> wf_box cs -> (0 < fs)%Qc -> Forall (is_pos cs) positions ->
  run_from_positions env cs fs m positions = Ok out -> dim cs = 2%nat \/ dim cs = 3%nat ->
  exists dss, plot_identification norder out = Ok (concat dss) /\ Forall2 (shown fs) (ic_results out) dss.
Proof. intros norder env cs fs m ps out NO GE B Fp P E D.
  assert (Eo : ic_cs out = cs /\ ic_feature_size out = fs). { unfold run_from_positions in E. destruct (sequence _); [|discriminate]. cbn in E. injection E as <-. auto. }
  destruct Eo as (Ec & Ef). pose proof (C52_result norder out NO) as R. rewrite Ec, Ef in R. replace ((dim cs =? 2) || (dim cs =? 3))%nat with true in R by (destruct D as [-> | ->]; reflexivity).
  apply R. unfold run_from_positions in E. destruct (sequence _) as [rs|] eqn:Sq; [|discriminate]. cbn in E. injection E as <-. cbn [ic_results]. apply sequence_spec in Sq.
  intros r Ir. destruct (in_results _ _ _ _ m rs r Sq Ir) as (c & Ic & Er). destruct (cluster_shape env cs fs ps GE B Fp P c m r Ic Er) as (Ep & _ & Sh).
  split; [rewrite Ep; apply (cluster_ne env cs fs ps GE B P c Ic)|]. intros g n Eg. unfold has_shape in Sh. destruct (i_dimension r) as [[|[|]]|]; try congruence.
  - destruct Sh as (a & _ & X). congruence.
  - destruct m; try congruence; (destruct Sh as (g' & Eg' & (Wf & Nn & _) & _); rewrite Eg in Eg'; injection Eg' as -> ->; auto). Qed.
Print Assumptions C52_identified.

(** hypotheses met: three points in the unit square, the second edge wraps around *)
Definition c52_q (a b : Z) : point := [Q2Qc (a # 10); Q2Qc (b # 10)].
Definition c52_g : graph point unit := mk_graph [c52_q 1 0; c52_q 2 0; c52_q 9 0] [(c52_q 1 0, c52_q 2 0, tt); (c52_q 1 0, c52_q 9 0, tt)].
Definition c52_fs : Qc := Q2Qc (3 # 10).
Definition c52_cs : coordsys := coordinate_system [(0%Qc, 1%Qc); (0%Qc, 1%Qc)] true.
Theorem C52_hypotheses_met : (forall (h : graph point unit) (u : point), any_order (fun l : list point => l)) /\ wf_graph c52_g /\
  get_graph_paths (fun (_ : graph point unit) (_ : point) (l : list point) => l) (longer_than (Some c52_fs)) c52_g = Ok [[c52_q 2 0; c52_q 1 0]; [c52_q 9 0]] /\
  is_line c52_g [c52_q 2 0; c52_q 1 0; c52_q 9 0] /\ (distance c52_cs (c52_q 1 0) (c52_q 9 0) <= Qc2R c52_fs)%R /\ ~ within (Some c52_fs) (c52_q 1 0) (c52_q 9 0).
Proof. assert (N1 : c52_q 1 0 <> c52_q 2 0) by discriminate. assert (N2 : c52_q 1 0 <> c52_q 9 0) by discriminate. assert (N3 : c52_q 2 0 <> c52_q 9 0) by discriminate.
  split; [intros h u l; apply Permutation_refl|]. split; [|split; [|split; [|split]]].
  - constructor; cbn [g_nodes g_edges c52_g].
    + repeat constructor; cbn; intuition.
    + intros u v w [E|[E|[]]]; injection E as <- <- <-; cbn; auto.
    + constructor; [constructor; [|constructor]|constructor; [constructor|constructor]]. vm_compute. reflexivity.
  - vm_compute. reflexivity.
  - split; [|split; [|split]].
    + repeat constructor; cbn; intuition.
    + cbn. lia.
    + intros x. cbn [In g_nodes c52_g]. tauto.
    + intros u v. rewrite !next_cons. split.
      * intros (w & [[E|[E|[]]]|[E|[E|[]]]]); injection E as <- <-; tauto.
      * intros [(-> & ->)|[(-> & ->)|[(-> & ->)|[(-> & ->)|X]]]]; try (exists tt; cbn; auto; fail). exfalso. eapply next_one. exact X.
  - apply dist_le_iff. vm_compute. reflexivity.
  - intros X. apply longer_spec in X. vm_compute in X. discriminate. Qed.
Print Assumptions C52_hypotheses_met.
(** finding: a node without edges does not appear in the plot if there are edges elsewhere in the line *)
Theorem C52_isolated_node_refuted : exists (g : graph point unit) x paths, wf_graph g /\ In x (g_nodes g) /\
  get_graph_paths (fun (_ : graph point unit) (_ : point) (l : list point) => l) (longer_than None) g = Ok paths /\ paths <> [] /\ ~ In x (concat paths).
Proof. exists (mk_graph [c52_q 1 0; c52_q 2 0; c52_q 9 0] [(c52_q 1 0, c52_q 2 0, tt)]), (c52_q 9 0), [[c52_q 1 0; c52_q 2 0]].
  assert (N1 : c52_q 1 0 <> c52_q 2 0) by discriminate. assert (N2 : c52_q 1 0 <> c52_q 9 0) by discriminate. assert (N3 : c52_q 2 0 <> c52_q 9 0) by discriminate.
  split; [constructor; cbn [g_nodes g_edges]|].
  - repeat constructor; cbn; intuition.
  - intros u v w [E|[]]; injection E as <- <- <-; cbn; auto.
  - constructor; constructor.
  - split; [cbn; auto|]. split; [vm_compute; reflexivity|]. split; [discriminate|]. cbn. intuition. Qed.
Print Assumptions C52_isolated_node_refuted.

(** ** C58: plots of search results *)
Lemma point_coords_ok (is3 : bool) (nodes : list result) : Forall (fun r => length (pos_of r) = if is3 then 3%nat else 2%nat) nodes ->
  point_coords is3 nodes = Ok (map (fun r => (pos_of r, value_of r)) nodes).
Proof. induction 1 as [|r rs L F IH]; auto. cbn [point_coords map]. destruct is3; destruct (pos_of r) as [|x [|y [|z [|]]]]; cbn in L; try lia; cbn [bind]; rewrite IH; reflexivity. Qed.
(** every node of a search result is drawn once, at its position and with its value *)
Theorem C58_points : forall cs gap cutoff rs ps c, wf_box cs -> history cs gap cutoff rs ps c ->
  let nodes := cl_flat (c_nodes c) in
  plot_points cs nodes = if ((dim cs =? 2) || (dim cs =? 3))%nat then Ok [ScatterValues (map pos_of nodes) (map value_of nodes)] else Err AssertionError.
Proof. intros cs gap cutoff rs ps c B H nodes. unfold plot_points, setup_plot, dim in *. rewrite orb_comm. destruct (_ || _)%bool eqn:D; [|reflexivity]. cbn [bind].
  rewrite point_coords_ok; [cbn [bind]; rewrite !map_map; reflexivity|]. apply Forall_forall. intros r Ir. unfold nodes in Ir. 
  destruct (PropContainer.C10_classification _ _ _ _ _ _ B H) as (N & _). rewrite N in Ir. apply filter_In in Ir as (Ir & _). apply in_map_iff in Ir as (r0 & <- & Ir0).
  assert (Lp : is_pos cs (pos_of r0)).
  { clear - H Ir0. revert r0 Ir0. induction H as [rs ps c E F _|rs ps c r' c' b H IH Hp _|rs ps c p c' H IH _ _|]; intros r Ir; auto.
    - rewrite Forall_forall in F; auto.
    - apply in_app_iff in Ir as [Ir|[<- |[]]]; auto. }
  unfold stored. rewrite pos_of_set_pos. rewrite normalize_length by exact Lp. apply orb_true_iff in D as [D|D]; apply Nat.eqb_eq in D; rewrite D; reflexivity. Qed.
Print Assumptions C58_points.
(** of the given nodes, every edge of every simplex of the history is drawn *)
Lemma pairs_in {A} (l : list A) x y : In (x, y) (pairs l) <-> exists l1 l2 l3, l = l1 ++ x :: l2 ++ y :: l3.
Proof. induction l as [|a l IH]; cbn.
  - split; [intros []|]. intros (l1 & l2 & l3 & E). destruct l1; discriminate.
  - rewrite in_app_iff, in_map_iff, IH. split.
    + intros [(z & E & I)|(l1 & l2 & l3 & ->)]; [injection E as -> ->; apply in_split in I as (l2 & l3 & ->); exists [], l2, l3; auto|exists (a :: l1), l2, l3; auto].
    + intros (l1 & l2 & l3 & E). destruct l1 as [|b l1]; cbn in E; injection E as -> ->; [left; exists y; rewrite in_app_iff; cbn; auto|right; eauto]. Qed.
Theorem C58_simplices : forall cs nodes, dim cs = 2%nat \/ dim cs = 3%nat ->
  exists ds, plot_simplices cs nodes = Ok ds /\
    forall d, In d ds <-> exists r s l1 x l2 y l3, In r nodes /\ In s (history_of r) /\ s = l1 ++ x :: l2 ++ y :: l3 /\ d = Lines [x; y].
Proof. intros cs nodes D. unfold plot_simplices, setup_plot, dim in *. replace ((length (limits cs) =? 3) || (length (limits cs) =? 2))%nat with true by (destruct D as [-> | ->]; reflexivity).
  cbn [bind]. eexists. split; [reflexivity|]. intros d. rewrite in_concat. split.
  - intros (l & Il & Id). apply in_map_iff in Il as (s & <- & Is). apply in_concat in Is as (h & Ih & Is). apply in_map_iff in Ih as (r & <- & Ir).
    unfold plot_simplex in Id. apply in_map_iff in Id as ((x, y) & <- & Ip). apply pairs_in in Ip as (l1 & l2 & l3 & E). exists r, s, l1, x, l2, y, l3. auto.
  - intros (r & s & l1 & x & l2 & y & l3 & Ir & Is & E & ->). exists (plot_simplex s). split.
    + apply in_map. apply in_concat. exists (history_of r). split; auto. apply in_map. auto.
    + unfold plot_simplex. apply in_map_iff. exists (x, y). split; auto. apply pairs_in. eauto. Qed.
Print Assumptions C58_simplices.
