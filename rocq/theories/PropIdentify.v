(** C51: the identification step. *)
From Verif Require Import Base BaseFacts CoordSys SpecGeom CoordSysFacts GeomCombined CellList Values Container SpecContainer ContainerFacts ContainerHist PropContainer Queue Hdf5 CoordSysR Graph SpecGraph GraphFacts Paths SpecPath PathFacts
  Cluster SpecCluster ClusterFacts PropCluster Dimension SpecDim DrawFacts LocalDim PropDim Ballistic ShortestPath DomSet SpecDomSet Shape Identify SpecIdentify IdentifyFacts.
From Coq Require Import Reals Psatz.
From Coq Require Import Lra.
Open Scope list_scope.

(** With the methods 'ballistic' and 'shortest_path' the identification of any positions
    ends without an exception; every position is accounted for, and the shape fits the
    dimension.  In particular there is a line for every object of dimension 1. *)
Theorem C51_positions : forall env cs fs m positions, good_environment cs env -> wf_box cs -> (0 < fs)%Qc -> Forall (is_pos cs) positions -> m = MBallistic \/ m = MShortestPath ->
  exists out, run_from_positions env cs fs m positions = Ok out /\ ic_cs out = cs /\ ic_feature_size out = fs /\
    accounts_for cs fs positions (ic_results out) /\
    forall r, In r (ic_results out) -> has_shape cs r (is_line_result cs fs) /\ forall d, i_dimension r = Some d -> (d <= 3)%nat /\ (d <= dim cs)%nat.
Proof. intros env cs fs m ps GE B Fp P M. unfold run_from_positions.
  destruct (sequence_total (identify_cluster env cs fs m) (create_clusters (e_order env) (e_edges env) cs fs ps)) as (rs & E).
  { intros c I. destruct (cluster_outcome env cs fs ps GE B Fp P c m I) as [X|(X & _)]; auto. exfalso. destruct M; congruence. }
  rewrite E. cbn [bind]. eexists. split; [reflexivity|]. cbn [ic_cs ic_feature_size ic_results]. split; auto. split; auto. apply sequence_spec in E. split; [eapply results_account; eauto|].
  intros r Ir. destruct (in_results _ _ _ _ m rs r E Ir) as (c & Ic & Ec). destruct (cluster_shape env cs fs ps GE B Fp P c m r Ic Ec) as (_ & D & Sh). split; auto.
  unfold has_shape in *. destruct (i_dimension r) as [[|[|]]|]; auto. destruct M as [-> | ->]; destruct Sh as (g & Eg & A & _); exists g; auto. Qed.
Print Assumptions C51_positions.

Lemma run_positions : forall env cs gap cutoff rs ps c m feature_size fs, wf_box cs -> history cs gap cutoff rs ps c ->
  fs = match feature_size with Some f => f | None => (qc 3 * cutoff)%Qc end ->
  let positions := map (fun r => normalize_position cs (pos_of r)) (filter (is_node gap) rs) in
  identify_run env (SContainer c) feature_size m = run_from_positions env cs fs m positions /\ Forall (is_pos cs) positions.
Proof. intros env cs gap cutoff rs ps c m ofs fs B H Ef. destruct (C10_classification _ _ _ _ _ _ B H) as (N & _ & _ & Ec & _ & Ed).
  assert (Ps : map pos_of (cl_flat (c_nodes c)) = map (fun r => normalize_position cs (pos_of r)) (filter (is_node gap) rs)).
  { rewrite N. clear. induction rs as [|r rs IH]; cbn [map filter]; auto. assert (X : is_node gap (stored cs r) = is_node gap r) by (destruct r as [|]; reflexivity). rewrite X.
    destruct (is_node gap r); cbn [map]; rewrite IH; auto. f_equal. unfold stored. apply pos_of_set_pos. }
  assert (Pp : Forall (is_pos cs) (map pos_of (cl_flat (c_nodes c)))).
  { rewrite Ps. apply Forall_forall. intros x Hx. apply in_map_iff in Hx as (r & <- & Ir). apply filter_In in Ir as (Ir & _). apply normalize_length.
    clear - H Ir. revert r Ir. induction H as [rs ps c E F _|rs ps c r' c' b H IH Hp _|rs ps c p c' H IH _ _|]; intros r Ir; auto.
    - rewrite Forall_forall in F; auto.
    - apply in_app_iff in Ir as [Ir|[<- |[]]]; auto. }
  assert (E : identify_run env (SContainer c) ofs m = run_from_positions env cs fs m (map pos_of (cl_flat (c_nodes c)))).
  { unfold identify_run. cbn [attr_dist_cutoff]. rewrite Ec, Ed. subst fs. destruct ofs; cbn [bind]; auto. f_equal. apply Qcmult_comm. }
  rewrite E, <- Ps. auto. Qed.

(** The result of a search: exactly the nodes, i.e. the results with success and a value
    not above the threshold, are identified.  By default with three times the cutoff of the search. *)
Theorem C51_run : forall env cs gap cutoff rs ps c m feature_size fs, good_environment cs env -> wf_box cs -> history cs gap cutoff rs ps c -> m = MBallistic \/ m = MShortestPath ->
  fs = match feature_size with Some f => f | None => (qc 3 * cutoff)%Qc end -> (0 < fs)%Qc ->
  exists out, identify_run env (SContainer c) feature_size m = Ok out /\ ic_cs out = cs /\ ic_feature_size out = fs /\
    accounts_for cs fs (map (fun r => normalize_position cs (pos_of r)) (filter (is_node gap) rs)) (ic_results out) /\
    forall r, In r (ic_results out) -> has_shape cs r (is_line_result cs fs) /\ forall d, i_dimension r = Some d -> (d <= 3)%nat /\ (d <= dim cs)%nat.
Proof. intros env cs gap cutoff rs ps c m ofs fs GE B H M Ef Fp. destruct (run_positions env cs gap cutoff rs ps c m ofs fs B H Ef) as (E & Pp). rewrite E. apply C51_positions; auto. Qed.
Print Assumptions C51_run.

(** The lines: connected with 'shortest_path'; without steps of length zero with 'ballistic'. *)
Theorem C51_line_methods : forall env cs fs m positions out r, good_environment cs env -> wf_box cs -> (0 < fs)%Qc -> Forall (is_pos cs) positions ->
  run_from_positions env cs fs m positions = Ok out -> In r (ic_results out) -> i_dimension r = Some 1%nat ->
  match m with
  | MOther => i_shape r = None
  | _ => exists g, i_shape r = Some (NodalLine g (create_degree_count g)) /\ line_along cs fs (i_positions r) g /\
      match m with MBallistic => forall u v, has_edge g u v -> distance cs u v <> 0%R | _ => connected g end
  end.
Proof. intros env cs fs m ps out r GE B Fp P E Ir D. unfold run_from_positions in E. destruct (sequence _) as [rs|] eqn:S; [|discriminate]. cbn in E. injection E as <-. cbn in Ir.
  apply sequence_spec in S. destruct (in_results _ _ _ _ m rs r S Ir) as (c & Ic & Ec). destruct (cluster_shape env cs fs ps GE B Fp P c m r Ic Ec) as (_ & _ & Sh).
  unfold has_shape in Sh. rewrite D in Sh. destruct m; auto. Qed.
Print Assumptions C51_line_methods.

(** The other methods: an unknown one leaves all lines without a shape; 'dominating_set'
    gives results as above or fails with TypeError or NetworkXNoPath, and does so only if
    some object is of dimension 1. *)
Theorem C51_other_methods : forall env cs fs positions, good_environment cs env -> wf_box cs -> (0 < fs)%Qc -> Forall (is_pos cs) positions ->
  (exists out, run_from_positions env cs fs MOther positions = Ok out /\ accounts_for cs fs positions (ic_results out) /\
     forall r, In r (ic_results out) -> has_shape cs r (fun r => i_shape r = None)) /\
  match run_from_positions env cs fs MDominatingSet positions with
  | Ok out => accounts_for cs fs positions (ic_results out) /\ forall r, In r (ic_results out) -> has_shape cs r (is_line_result cs fs)
  | Err e => (e = TypeError \/ e = NetworkXNoPath) /\
      forall out, run_from_positions env cs fs MOther positions = Ok out -> exists r, In r (ic_results out) /\ i_dimension r = Some 1%nat
  end.
Proof. intros env cs fs ps GE B Fp P. split.
  - unfold run_from_positions. destruct (sequence_total (identify_cluster env cs fs MOther) (create_clusters (e_order env) (e_edges env) cs fs ps)) as (rs & E).
    { intros c I. destruct (cluster_outcome env cs fs ps GE B Fp P c MOther I) as [X|(X & _)]; auto. discriminate. }
    rewrite E. eexists. split; [reflexivity|]. cbn. apply sequence_spec in E. split; [eapply results_account; eauto|].
    intros r Ir. destruct (in_results _ _ _ _ _ rs r E Ir) as (c & Ic & Ec). apply (cluster_shape env cs fs ps GE B Fp P c MOther r Ic Ec).
  - unfold run_from_positions. destruct (sequence (map (identify_cluster env cs fs MDominatingSet) _)) as [rs|e] eqn:E; cbn.
    + apply sequence_spec in E. split; [eapply results_account; eauto|]. intros r Ir. destruct (in_results _ _ _ _ _ rs r E Ir) as (c & Ic & Ec).
      destruct (cluster_shape env cs fs ps GE B Fp P c MDominatingSet r Ic Ec) as (_ & _ & Sh). unfold has_shape in *. destruct (i_dimension r) as [[|[|]]|]; auto. destruct Sh as (g & Eg & A & _). exists g; auto.
    + apply sequence_err in E as (c & Ic & Ec). destruct (cluster_outcome env cs fs ps GE B Fp P c MDominatingSet Ic) as [(r & X)|(_ & X)]; [congruence|].
      split; [rewrite Ec in X; destruct X; [left|right]; congruence|]. intros out Eo. destruct (sequence (map (identify_cluster env cs fs MOther) _)) as [rs|] eqn:S; [|discriminate]. cbn in Eo. injection Eo as <-. cbn [ic_results].
      apply sequence_spec in S. clear X. unfold identify_cluster in Ec. destruct (dimension_total env cs fs ps GE B P c Ic) as (d & Ed). rewrite Ed in Ec. cbn [bind] in Ec.
      assert (D1 : d = Some 1%nat). { destruct d as [[|[|]]|]; auto; exfalso; cbn in Ec; try discriminate. unfold evaluate_point in Ec. destruct (average_total cs B _ (cluster_pos env cs fs ps GE B P c Ic) (cluster_ne env cs fs ps GE B P c Ic)) as (a & Ea). rewrite Ea in Ec. discriminate. }
      subst d. clear Ec e. induction S as [|c' r l rs' Er S IH]; [destruct Ic|]. destruct Ic as [-> |Ic].
      * exists r. split; [left; auto|]. unfold identify_cluster in Er. rewrite Ed in Er. cbn in Er. injection Er as <-. auto.
      * destruct IH as (r' & Ir & Dr); auto. exists r'. split; [right|]; auto. Qed.
Print Assumptions C51_other_methods.

(** Finding: the state saved by a search (which is accepted in place of a container) only
    works with an explicit feature size. *)
Theorem C51_state : forall env s fs m, identify_run env (SState s) (Some fs) m = identify_run env (SContainer (st_result s)) (Some fs) m.
Proof. reflexivity. Qed.
Print Assumptions C51_state.
Theorem C51_state_default_refuted : forall env s m, identify_run env (SState s) None m = Err AttributeError.
Proof. reflexivity. Qed.
Print Assumptions C51_state_default_refuted.

(** ** Such environments exist *)
Lemma draws_suffice num : forall ds used l, NoDup l -> incl l (used ++ map sort_tuple ds) -> (num <= 2 * length l)%nat -> snd (draw_random num used ds) = true.
Proof. induction ds as [|d ds IH]; intros used l N I L; cbn [draw_random]; destruct (Nat.leb_spec num (2 * length used)) as [X|X]; auto.
  - exfalso. cbn in I. rewrite app_nil_r in I. pose proof (NoDup_incl_length N I). lia.
  - destruct (mem (sort_tuple d) used) eqn:M.
    + apply (IH used l); auto. intros x Hx. apply I in Hx. rewrite in_app_iff in *. cbn in Hx. destruct Hx as [|[<- |]]; auto. apply mem_spec in M. auto.
    + assert (Y : snd (draw_random num (set_add (sort_tuple d) used) ds) = true); [|destruct (draw_random num (set_add (sort_tuple d) used) ds); exact Y].
      apply (IH _ l); auto. intros x Hx. apply I in Hx. unfold set_add. rewrite M. rewrite !in_app_iff in *. cbn in *. tauto. Qed.
Definition plain_rng (g : graph point R) (p : point) (k : nat) : rng := mk_rng (combinations k (neighbors g p)) (fun s => s).
Lemma plain_rng_good cs g me : wf_graph g -> good_env cs g (plain_rng g) me.
Proof. intros W p k. pose proof (nodup_neighbors W p) as Nn. split.
  - constructor; cbn; auto. apply Forall_forall. intros t It. destruct (combinations_in _ _ _ It) as (I & L). destruct (combinations_nodup _ Nn _ _ It) as (N & _). split; auto.
  - unfold enough_draws, draw_neighbour_tuple. cbn [draws shuffle plain_rng]. set (m := match me with None => _ | Some m => m end). destruct (_ <? _)%nat; [|reflexivity].
    pose proof (draws_suffice (binom (length (neighbors g p)) k) (combinations k (neighbors g p)) [] (map sort_tuple (combinations k (neighbors g p)))) as X.
    destruct (draw_random _ _ _) as [ys lf]. cbn in X. rewrite X; auto.
    + apply combos_nodup; auto.
    + apply incl_refl.
    + rewrite !map_length, (combinations_length (neighbors g p) k). lia. Qed.
Definition plain_env : environment :=
  mk_env (fun l => l) (fun l => l) (fun l => l) (fun _ l => l) plain_rng some_spath (@g_nodes point unit).
Theorem C51_environments_exist : forall cs, good_environment cs plain_env.
Proof. intros cs. constructor; cbn; try (intros l; apply Permutation_refl); try (intros g l; apply Permutation_refl).
  - intros g W. apply plain_rng_good; auto.
  - apply some_spath_good.
  - intros g W. split; [apply incl_refl|]. intros x Ix. left. auto. Qed.
Print Assumptions C51_environments_exist.

(** hypotheses met: the positions of C41_hypotheses_met: 1/20 and 19/20 in the periodic
    unit interval are one line, 1/2 is a point *)
Theorem C51_hypotheses_met : good_environment c41_cs plain_env /\ wf_box c41_cs /\ Forall (is_pos c41_cs) c41_ps /\
  exists out r1 r2, run_from_positions plain_env c41_cs (c41_q 1 5) MBallistic c41_ps = Ok out /\ ic_results out = [r1; r2] /\
    i_positions r1 = [[c41_q 1 20]; [c41_q 19 20]] /\ i_dimension r1 = Some 1%nat /\ (exists g, i_shape r1 = Some (NodalLine g (create_degree_count g))) /\
    i_positions r2 = [[c41_q 1 2]] /\ i_dimension r2 = Some 0%nat /\ i_shape r2 = Some (NodalPoint [c41_q 1 2]).
Proof. destruct C41_hypotheses_met as (_ & _ & B & P & _). pose proof (C51_environments_exist c41_cs) as GE. split; auto. split; auto. split; auto.
  assert (Fp : (0 < c41_q 1 5)%Qc) by reflexivity.
  destruct (C51_positions plain_env c41_cs (c41_q 1 5) MBallistic c41_ps GE B Fp P (or_introl eq_refl)) as (out & E & _ & _ & _ & Sh).
  pose proof E as E'. unfold run_from_positions in E'. destruct (sequence _) as [rs|] eqn:Sq; [|discriminate]. cbn [bind] in E'. assert (Er : rs = ic_results out) by (injection E' as <-; reflexivity). clear E'. subst rs.
  apply sequence_spec in Sq. pose proof (results_positions plain_env c41_cs (c41_q 1 5) c41_ps MBallistic (ic_results out) Sq) as Ep.
  assert (Nd : map (@g_nodes point R) (create_clusters (fun l => l) (fun l => l) c41_cs (c41_q 1 5) c41_ps) = [[[c41_q 1 20]; [c41_q 19 20]]; [[c41_q 1 2]]]) by (vm_compute; reflexivity).
  change (e_order plain_env) with (fun l : list point => l) in *. change (e_edges plain_env) with (fun l : list (point * point * R) => l) in *.
  remember (create_clusters (fun l => l) (fun l => l) c41_cs (c41_q 1 5) c41_ps) as cl eqn:Ecl.
  destruct cl as [|c1 [|c2 [|]]]; [discriminate Nd|discriminate Nd| |discriminate Nd]. cbn [map] in Nd. injection Nd as N1 N2.
  assert (I1 : In c1 (create_clusters (fun l => l) (fun l => l) c41_cs (c41_q 1 5) c41_ps)) by (rewrite <- Ecl; left; reflexivity).
  assert (I2 : In c2 (create_clusters (fun l => l) (fun l => l) c41_cs (c41_q 1 5) c41_ps)) by (rewrite <- Ecl; right; left; reflexivity).
  destruct (cluster_edges plain_env c41_cs (c41_q 1 5) c41_ps GE B P c1 I1) as (W1 & Lo1 & Ce1). destruct (cluster_edges plain_env c41_cs (c41_q 1 5) c41_ps GE B P c2 I2) as (W2 & Lo2 & Ce2).
  pose proof (cluster_pos plain_env c41_cs (c41_q 1 5) c41_ps GE B P c1 I1) as Pc1. clear I1 I2.
  clear Ecl. inversion Sq as [|? r1 ? rs1 R1 Sq1 X1 Y1]; subst. inversion Sq1 as [|? r2 ? rs2 R2 Sq2 X2 Y2]; subst. inversion Sq2; subst.
  rewrite <- Y1 in *. cbn [map] in Ep. injection Ep as Ep1 Ep2. exists out, r1, r2. split; [exact E|]. split; [symmetry; exact Y1|].
  split; [congruence|]. 
  assert (D1 : i_dimension r1 = Some 1%nat).
  { unfold identify_cluster in R1. destruct (cluster_dimension plain_env c41_cs (c41_q 1 5) c1) as [d|] eqn:Ed; [|discriminate]. cbn [bind] in R1. destruct (evaluate_cluster _ _ _ _ _ _); [|discriminate]. injection R1 as <-. cbn [i_dimension].
    unfold cluster_dimension in Ed. rename W1 into W, Ce1 into Ce.
    assert (Far : forall p q, has_edge c1 p q -> (Qc2R (c41_q 1 5) / 4 < distance c41_cs p q)%R).
    { intros p q Hpq. destruct (wf_ends W Hpq) as (Ip & Iq). apply Ce in Hpq as (Ne & _); auto. rewrite N1 in Ip, Iq.
      assert (Dl : dist_le c41_cs p q (c41_q 1 20) = false). { destruct Ip as [<- |[<- |[]]], Iq as [<- |[<- |[]]]; try congruence; vm_compute; reflexivity. }
      apply not_true_iff_false in Dl. rewrite dist_le_iff in Dl. assert (X : (Qc2R (c41_q 1 5) / 4 = Qc2R (c41_q 1 20))%R); [|lra].
      replace (c41_q 1 5) with (c41_q 1 20 + c41_q 1 20 + (c41_q 1 20 + c41_q 1 20))%Qc by (apply Qc_is_canon; reflexivity). rewrite !Qc2R_add. lra. }
    eapply (C46_spaced_line _ _ _ c41_cs c1 _ _ _ _ [1%Qc] d (ge_shuffle _ _ GE c1) B W Pc1); [| | | | | | |exact Ed]; auto.
    - rewrite <- Qc2R_0. apply Qc2R_le. discriminate.
    - intros p k. apply (ge_rng _ _ GE c1 W).
    - intros p q v Hpq C. assert (L : length v = 1%nat).
      { destruct (wf_ends W Hpq) as (Ip & Iq). pose proof Pc1 as Pc. rewrite Forall_forall in Pc.
        destruct (connecting_vector_spec c41_cs p q B (Pc p Ip) (Pc q Iq)) as (v' & Ev & Lv & _). rewrite C in Ev. injection Ev as <-. exact Lv. }
      destruct v as [|x1 [|x2 v2]]; try discriminate L. exists x1. cbn. f_equal. ring.
    - intros p Ip. assert (Dq : exists q, In q (g_nodes c1) /\ p <> q /\ dist_le c41_cs p q (c41_q 1 5) = true).
      { rewrite N1 in *. destruct Ip as [<- |[<- |[]]]; [exists [c41_q 19 20]|exists [c41_q 1 20]]; (split; [cbn; auto|]); (split; [|vm_compute; reflexivity]); apply eqb_false; vm_compute; reflexivity. }
      destruct Dq as (q & Iq & Ne & Dl). exists q. apply Ce; auto. split; auto. apply dist_le_iff. auto. }
  assert (D2 : i_dimension r2 = Some 0%nat).
  { unfold identify_cluster in R2. destruct (cluster_dimension plain_env c41_cs (c41_q 1 5) c2) as [d|] eqn:Ed; [|discriminate]. cbn [bind] in R2. destruct (evaluate_cluster _ _ _ _ _ _); [|discriminate]. injection R2 as <-. cbn [i_dimension].
    unfold cluster_dimension in Ed. rename W2 into W, Ce2 into Ce.
    assert (NoE : forall p q, ~ has_edge c2 p q). { intros p q Hpq. destruct (wf_ends W Hpq) as (Ip & Iq). apply Ce in Hpq as (Ne & _); auto. rewrite N2 in Ip, Iq. destruct Ip as [<- |[]], Iq as [<- |[]]. auto. }
    destruct d as [d|].
    - f_equal. eapply (C46_point _ _ _ c41_cs c2 _ _ _ _ d (ge_shuffle _ _ GE c2) W); [| | |exact Ed].
      + rewrite <- Qc2R_0. apply Qc2R_le. discriminate.
      + intros p k. apply (ge_rng _ _ GE c2 W).
      + intros p q v Hpq. exfalso. eapply NoE; eauto.
    - exfalso. apply (C44_inconclusive _ _ _ c41_cs c2 _ _ _ _ (ge_shuffle _ _ GE c2)) in Ed as (F & T). rewrite N2 in F, T. inversion F as [|? ? (k & Ek) _]; subst.
      apply (T k). unfold two_thirds, votes. cbn [filter]. rewrite Ek, Nat.eqb_refl. cbn. lia. }
  destruct (Sh r1 (or_introl eq_refl)) as (S1 & _). destruct (Sh r2 (or_intror (or_introl eq_refl))) as (S2 & _). unfold has_shape in S1, S2. rewrite D1 in S1. rewrite D2 in S2.
  destruct S1 as (g & Eg & _). destruct S2 as (a & Ea & Es). rewrite Ep2, N2 in Ea. split; [exact D1|]. split; [exists g; exact Eg|]. split; [congruence|]. split; [exact D2|]. rewrite Es. f_equal. f_equal.
  assert (X : average c41_cs [[c41_q 1 2]] = Ok [c41_q 1 2]) by (vm_compute; reflexivity). congruence. Qed.
Print Assumptions C51_hypotheses_met.
