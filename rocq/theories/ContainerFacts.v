(** Facts about the result container. *)
From Verif Require Import Base BaseFacts CoordSys SpecGeom CoordSysFacts CellList CellListFacts Values Container
  CellGeomFacts SpecContainer.
Open Scope Qc_scope.
Set Implicit Arguments.

Definition node_key (cs : coordsys) (r : result) : point := get_frac cs (pos_of r).

Record c_good (c : container) : Prop := {
  cg_box : wf_box (c_cs c);
  cg_nodes : cl_good (node_key (c_cs c)) (c_nodes c);
  cg_refined : cl_good (get_frac (c_cs c)) (c_refined c);
  cg_num_n : cl_num (c_nodes c) = num_cells (c_cutoff c) (c_cs c);
  cg_num_r : cl_num (c_refined c) = num_cells (c_cutoff c) (c_cs c);
  cg_per_n : cl_periodic (c_nodes c) = periodic (c_cs c);
  cg_per_r : cl_periodic (c_refined c) = periodic (c_cs c);
  cg_pos_n : Forall (fun r => is_pos (c_cs c) (pos_of r)) (cl_flat (c_nodes c));
  cg_pos_r : Forall (is_pos (c_cs c)) (cl_flat (c_refined c))
}.

Lemma pos_of_set_pos r p : pos_of (set_pos r p) = p.
Proof. destruct r; reflexivity. Qed.
Lemma success_set_pos r p : success_of (set_pos r p) = success_of r.
Proof. destruct r; reflexivity. Qed.
Lemma value_set_pos r p : value_of (set_pos r p) = value_of r.
Proof. destruct r; reflexivity. Qed.
Lemma is_node_stored gap cs r : is_node gap (stored cs r) = is_node gap r.
Proof. unfold is_node, stored. rewrite success_set_pos, value_set_pos. reflexivity. Qed.

Lemma frac_index_in_range cs cutoff p : is_pos cs p ->
  in_range (total_of (periodic cs) (num_cells cutoff cs))
           (map2 (get_index1 (periodic cs)) (num_cells cutoff cs) (get_frac cs p)).
Proof. intros Hp. apply index_in_range; [apply num_cells_positive| |].
  - rewrite num_cells_length. apply get_frac_length. auto.
  - intros Per. apply get_frac_range; auto. Qed.

Lemma add_result_ok c r : c_good c -> is_pos (c_cs c) (pos_of r) ->
  exists c' , add_result c r = Ok (c', is_node (c_gap c) r) /\ c_good c' /\
    cl_flat (c_nodes c') = cl_flat (c_nodes c) ++ (if is_node (c_gap c) r then [stored (c_cs c) r] else []) /\
    c_rejected c' = c_rejected c ++ (if is_node (c_gap c) r then [] else [stored (c_cs c) r]) /\
    c_refined c' = c_refined c /\ c_cs c' = c_cs c /\ c_gap c' = c_gap c /\ c_cutoff c' = c_cutoff c /\
    c_needs_saving c' = c_needs_saving c.
Proof. intros G Hp. unfold add_result. fold (stored (c_cs c) r).
  assert (E : negb (success_of (stored (c_cs c) r)) || fgt (value_of (stored (c_cs c) r)) (c_gap c)
              = negb (is_node (c_gap c) r)).
  { rewrite <- (is_node_stored (c_gap c) (c_cs c) r). unfold is_node. destruct (success_of _), (fgt _ _); reflexivity. }
  rewrite E. destruct (is_node (c_gap c) r) eqn:N; cbn [negb].
  - assert (Hq : is_pos (c_cs c) (pos_of (stored (c_cs c) r))).
    { unfold stored. rewrite pos_of_set_pos. apply normalize_length. auto. }
    destruct (@add_point_ok _ (node_key (c_cs c)) (c_nodes c) (stored (c_cs c) r)) as (n & En & Gn & Fn & Nn & Pn).
    + apply G.
    + unfold cl_total, get_index, node_key. rewrite (cg_num_n G), (cg_per_n G). apply frac_index_in_range; auto.
    + unfold node_key at 1 in En. rewrite En. cbn [bind]. eexists. split; [reflexivity|].
      destruct G. split.
      * constructor; cbn [set_nodes c_cs c_gap c_cutoff c_nodes c_refined]; auto; try congruence.
        rewrite Fn. apply Forall_app; auto.
      * cbn. rewrite app_nil_r. auto 10.
  - eexists. split; [reflexivity|]. destruct G. split; [constructor; auto|]. cbn. rewrite app_nil_r. auto 10. Qed.

Lemma set_refined_ok c p : c_good c -> is_pos (c_cs c) p ->
  exists c', set_refined c p = Ok c' /\ c_good c' /\
    cl_flat (c_refined c') = cl_flat (c_refined c) ++ [p] /\
    c_nodes c' = c_nodes c /\ c_rejected c' = c_rejected c /\
    c_cs c' = c_cs c /\ c_gap c' = c_gap c /\ c_cutoff c' = c_cutoff c /\ c_needs_saving c' = true.
Proof. intros G Hp. unfold set_refined.
  destruct (@add_point_ok _ (get_frac (c_cs c)) (c_refined c) p) as (n & En & Gn & Fn & Nn & Pn).
  - apply G.
  - unfold cl_total, get_index. rewrite (cg_num_r G), (cg_per_r G). apply frac_index_in_range; auto.
  - rewrite En. cbn [bind]. eexists. split; [reflexivity|]. destruct G. split.
    + constructor; cbn; auto; try congruence. rewrite Fn. apply Forall_app; auto.
    + cbn. auto 10. Qed.

Lemma add_results_ok rs : forall c, c_good c -> Forall (fun r => is_pos (c_cs c) (pos_of r)) rs ->
  exists c', add_results c rs = Ok c' /\ c_good c' /\
    cl_flat (c_nodes c') = cl_flat (c_nodes c) ++ filter (is_node (c_gap c)) (map (stored (c_cs c)) rs) /\
    c_rejected c' = c_rejected c ++ filter (fun r => negb (is_node (c_gap c) r)) (map (stored (c_cs c)) rs) /\
    c_refined c' = c_refined c /\ c_cs c' = c_cs c /\ c_gap c' = c_gap c /\ c_cutoff c' = c_cutoff c.
Proof. induction rs as [|r rs IH]; intros c G H; simpl.
  - exists c. rewrite !app_nil_r. auto 10.
  - inversion H as [|? ? Hr Hrs]; subst. destruct (@add_result_ok c r G Hr) as (c1 & E1 & G1 & N1 & R1 & F1 & C1 & P1 & D1 & S1).
    rewrite E1. cbn [bind fst]. destruct (IH c1) as (c2 & E2 & G2 & N2 & R2 & F2 & C2 & P2 & D2); auto.
    { rewrite C1. auto. }
    exists c2. split; auto. split; auto. rewrite N2, R2, N1, R1, C1, P1, !is_node_stored.
    destruct (is_node (c_gap c) r); simpl; rewrite <- !app_assoc; simpl; repeat split; congruence. Qed.
Lemma set_refineds_ok ps : forall c, c_good c -> Forall (is_pos (c_cs c)) ps ->
  exists c', set_refineds c ps = Ok c' /\ c_good c' /\
    cl_flat (c_refined c') = cl_flat (c_refined c) ++ ps /\
    c_nodes c' = c_nodes c /\ c_rejected c' = c_rejected c /\
    c_cs c' = c_cs c /\ c_gap c' = c_gap c /\ c_cutoff c' = c_cutoff c.
Proof. induction ps as [|p ps IH]; intros c G H; simpl.
  - exists c. rewrite !app_nil_r. auto 10.
  - inversion H as [|? ? Hp Hps]; subst. destruct (@set_refined_ok c p G Hp) as (c1 & E1 & G1 & F1 & N1 & R1 & C1 & P1 & D1 & _).
    rewrite E1. cbn [bind]. destruct (IH c1) as (c2 & E2 & G2 & F2 & N2 & R2 & C2 & P2 & D2); auto.
    { rewrite C1. auto. }
    exists c2. split; auto. split; auto. rewrite F2, F1, <- app_assoc. repeat split; congruence. Qed.

Lemma c_good_needs_saving c b : c_good c -> c_good (set_c_needs_saving c b).
Proof. intros []. constructor; auto. Qed.

Definition represents (cs : coordsys) (gap : fval) (cutoff : Qc) (rs : list result) (ps : list point) (c : container) : Prop :=
  c_good c /\ c_cs c = cs /\ c_gap c = gap /\ c_cutoff c = cutoff /\
  cl_flat (c_nodes c) = filter (is_node gap) (map (stored cs) rs) /\
  c_rejected c = filter (fun r => negb (is_node gap r)) (map (stored cs) rs) /\
  cl_flat (c_refined c) = ps.

Lemma container_new_ok cs gap cutoff rs ps : wf_box cs ->
  Forall (fun r => is_pos cs (pos_of r)) rs -> Forall (is_pos cs) ps ->
  exists c, container_new cs gap cutoff rs ps = Ok c /\ represents cs gap cutoff rs ps c /\ c_needs_saving c = true.
Proof. intros Hw Hr Hps. unfold container_new.
  destruct (@cl_new_ok result (node_key cs) (num_cells cutoff cs) (periodic cs)) as (n & En & Gn & Fn & Nn & Pn);
    [apply num_cells_positive|].
  destruct (@cl_new_ok point (get_frac cs) (num_cells cutoff cs) (periodic cs)) as (m & Em & Gm & Fm & Nm & Pm);
    [apply num_cells_positive|].
  rewrite En, Em. cbn [bind].
  set (c0 := {| c_cs := cs; c_gap := gap; c_cutoff := cutoff; c_nodes := n; c_rejected := []; c_refined := m; c_needs_saving := true |}).
  assert (G0 : c_good c0). { constructor; simpl; auto; [rewrite Fn | rewrite Fm]; constructor. }
  destruct (@add_results_ok rs c0 G0 Hr) as (c1 & E1 & G1 & N1 & R1 & F1 & C1 & P1 & D1).
  rewrite E1. cbn [bind]. destruct (@set_refineds_ok ps c1 G1) as (c2 & E2 & G2 & F2 & N2 & R2 & C2 & P2 & D2).
  { rewrite C1. auto. }
  rewrite E2. cbn [bind]. eexists. split; [reflexivity|]. split; [|reflexivity].
  split; [apply c_good_needs_saving; auto|]. simpl. repeat split; try (simpl in *; congruence).
  - rewrite N2, N1. simpl. rewrite Fn. reflexivity.
  - rewrite F2, F1. simpl. rewrite Fm. reflexivity. Qed.

Lemma history_represents cs gap cutoff rs ps c : wf_box cs -> history cs gap cutoff rs ps c ->
  represents cs gap cutoff rs ps c.
Proof. intros Hw H. induction H as [rs ps c E Hr Hp|rs ps c r c' b H IH Hr E|rs ps c p c' H IH Hp E|rs ps c b H IH].
  - destruct (container_new_ok gap cutoff Hw Hr Hp) as (c' & E' & R & _). congruence.
  - destruct IH as (G & C & P & D & N & R & F). rewrite <- C in Hr.
    destruct (@add_result_ok c r G Hr) as (c1 & E1 & G1 & N1 & R1 & F1 & C1 & P1 & D1 & S1).
    rewrite E1 in E. injection E as -> <-. split; auto. rewrite !map_app, !filter_app, N1, R1, N, R. simpl.
    rewrite C, P, is_node_stored in *. destruct (is_node gap r); simpl; repeat split; congruence.
  - destruct IH as (G & C & P & D & N & R & F). rewrite <- C in Hp.
    destruct (@set_refined_ok c p G Hp) as (c1 & E1 & G1 & F1 & N1 & R1 & C1 & P1 & D1 & S1).
    rewrite E1 in E. injection E as ->. split; auto. repeat split; congruence.
  - destruct IH as (G & C & P & D & N & R & F). split; [apply c_good_needs_saving; auto|]. auto 10. Qed.

(** ** lookups *)
Lemma dist_comp ls per p q : length p = length ls -> length q = length ls ->
  Forall2 (fun l pq => delta1 per l pq * delta1 per l pq <=
     qsum (map (fun d => d * d) (map2 (delta1 per) ls (combine p q)))) ls (combine p q).
Proof. revert p q. induction ls as [|l ls IH]; destruct p as [|x p], q as [|y q]; simpl; intros Hp Hq; try lia; constructor.
  - assert (0 <= qsum (map (fun d => d * d) (map2 (delta1 per) ls (combine p q)))).
    { apply qsum_nonneg. apply Forall_forall. intros z Hz. apply in_map_iff in Hz as (w & <- & _). apply sq_nonneg. }
    set (d := delta1 per l (x, y)). qlra.
  - assert (Hp' : length p = length ls) by lia. assert (Hq' : length q = length ls) by lia.
    eapply Forall2_impl; [|apply (IH p q Hp' Hq')]. intros a b H. cbn beta in *.
    pose proof (sq_nonneg (delta1 per l (x, y))) as S. set (d := delta1 per l (x, y) * _) in *. qlra. Qed.

Lemma near_index cs cutoff p q : wf_box cs -> lookup_complete cs cutoff -> is_pos cs p -> is_pos cs q ->
  dist_lt cs p q cutoff = true ->
  let num := num_cells cutoff cs in
  exists os, length os = length num /\ Forall (fun o => (-1 <= o <= 1)%Z) os /\
    map2 (get_index1 (periodic cs)) num (get_frac cs q) =
    (let s := idx_add (map2 (get_index1 (periodic cs)) num (get_frac cs p)) os in
     if periodic cs then map2 Z.modulo s (total_of (periodic cs) num) else s).
Proof. unfold dist_lt, dist_sq. intros Hw Hc Hp Hq H. apply andb_true_iff in H as [H1 H2].
  apply ltb_spec in H1. apply ltb_spec in H2.
  pose proof (@dist_comp (limits cs) (periodic cs) p q Hp Hq) as HF.
  assert (HF' : Forall2 (fun l pq => delta1 (periodic cs) l pq * delta1 (periodic cs) l pq < cutoff * cutoff) (limits cs) (combine p q)).
  { eapply Forall2_impl; [|exact HF]. intros a b Hab. cbn beta in Hab. eapply Qcle_lt_trans; eauto. }
  clear HF H2. cbv zeta. unfold num_cells, get_frac, idx_add, is_pos, wf_box, lookup_complete, total_of in *.
  set (per := periodic cs) in *. clearbody per. revert p q Hp Hq Hw Hc HF'.
  induction (limits cs) as [|[lo hi] ls IH]; destruct p as [|x p], q as [|y q]; simpl; intros Hp Hq Hw Hc HF; try lia.
  - exists []. split; auto. split; auto. destruct per; reflexivity.
  - inversion Hw as [|? ? Hl Hw']; subst. inversion HF as [|? ? ? ? Hd HF']; subst. cbn [fst snd] in *.
    destruct (@near1 per lo hi cutoff x y Hl H1 Hd) as (o & Ho & Eo).
    { intros ->. destruct Hc as [Hc|Hc]; [discriminate|]. inversion Hc; auto. }
    destruct (IH p q) as (os & Lo & Fo & Eq); auto.
    { destruct Hc as [Hc|Hc]; [auto|right]. inversion Hc; auto. }
    exists (o :: os). split; [simpl; congruence|]. split; [constructor; auto|].
    destruct per; simpl; f_equal; auto. Qed.

Lemma node_neighbour_ok c p : c_good c -> is_pos (c_cs c) p ->
  exists vs, get_neighbour_values (c_nodes c) (get_frac (c_cs c) p) = Ok vs.
Proof. intros G Hp. eexists. apply (get_neighbour_values_ok (node_key (c_cs c))); [apply G|].
  rewrite (cg_num_n G), num_cells_length. apply get_frac_length; auto. Qed.
Lemma refined_neighbour_ok c p : c_good c -> is_pos (c_cs c) p ->
  exists vs, get_neighbour_values (c_refined c) (get_frac (c_cs c) p) = Ok vs.
Proof. intros G Hp. eexists. apply (get_neighbour_values_ok (get_frac (c_cs c))); [apply G|].
  rewrite (cg_num_r G), num_cells_length. apply get_frac_length; auto. Qed.

Lemma near_in_lookup {V} (cl : cell_list V) (key : V -> point) cs cutoff p v vs :
  wf_box cs -> lookup_complete cs cutoff -> is_pos cs p -> is_pos cs (key v) ->
  cl_good (fun v => get_frac cs (key v)) cl -> cl_num cl = num_cells cutoff cs -> cl_periodic cl = periodic cs ->
  In v (cl_flat cl) -> dist_lt cs p (key v) cutoff = true ->
  get_neighbour_values cl (get_frac cs p) = Ok vs -> In v vs.
Proof. intros Hw Hc Hp Hk G En Ep Hv Hd E.
  assert (Lf : forall q, is_pos cs q -> length (get_frac cs q) = length (cl_num cl)).
  { intros q Hq. rewrite En, num_cells_length. apply get_frac_length; auto. }
  rewrite (in_neighbour_values _ _ _ _ v G (Lf p Hp) E). split; auto.
  apply neighbour_in; [apply G | apply get_index_length; apply Lf; auto|].
  destruct (@near_index cs cutoff p (key v) Hw Hc Hp Hk Hd) as (os & Lo & Fo & Eo).
  exists os. unfold get_index, cl_total. rewrite En, Ep. split; [|split; [auto|split]].
  - rewrite map2_length; [auto|]. rewrite num_cells_length. symmetry. apply get_frac_length; auto.
  - apply frac_index_in_range; auto.
  - rewrite Eo. destruct (periodic cs); reflexivity. Qed.

Lemma neighbours_spec c p : c_good c -> is_pos (c_cs c) p ->
  exists ns, get_neighbours c p = Ok ns /\
    (forall r, In r ns -> In r (cl_flat (c_nodes c)) /\ pos_of r <> p) /\
    (lookup_complete (c_cs c) (c_cutoff c) -> forall r, In r (cl_flat (c_nodes c)) -> pos_of r <> p ->
       dist_lt (c_cs c) p (pos_of r) (c_cutoff c) = true -> In r ns) /\
    (lookup_unique (c_cs c) (c_cutoff c) -> exists rest, Permutation (ns ++ rest) (cl_flat (c_nodes c))).
Proof. intros G Hp. destruct (node_neighbour_ok G Hp) as [vs E]. unfold get_neighbours. rewrite E. cbn [bind].
  assert (Lf : length (get_frac (c_cs c) p) = length (cl_num (c_nodes c))).
  { rewrite (cg_num_n G), num_cells_length. apply get_frac_length; auto. }
  eexists. split; [reflexivity|]. split; [|split].
  - intros r Hr. apply filter_In in Hr as [Hr Nr]. apply negb_true_iff, eqb_false in Nr. split; auto.
    apply (in_neighbour_values _ _ _ _ r (cg_nodes G) Lf E) in Hr. tauto.
  - intros Hc r Hr Nr Hd. apply filter_In. split; [|apply negb_true_iff, eqb_false; auto].
    eapply (near_in_lookup (cl := c_nodes c) pos_of (cs := c_cs c) (cutoff := c_cutoff c)); eauto; try apply G.
    pose proof (cg_pos_n G) as HP. rewrite Forall_forall in HP. auto.
  - intros Hu. destruct (neighbour_values_multiplicity _ _ _ vs (cg_nodes G) Lf) as [rest Hrest]; auto.
    { intros Per. rewrite (cg_num_n G). apply Hu. rewrite <- (cg_per_n G). auto. }
    exists (filter (fun x => negb (negb (eqb (pos_of x) p))) vs ++ rest).
    rewrite app_assoc, filter_split_perm. auto. Qed.

Lemma refined_spec c p : c_good c -> is_pos (c_cs c) p ->
  exists ns, get_neighbour_values (c_refined c) (get_frac (c_cs c) p) = Ok ns /\
    (forall r, In r ns -> In r (cl_flat (c_refined c))) /\
    (lookup_complete (c_cs c) (c_cutoff c) -> forall r, In r (cl_flat (c_refined c)) ->
       dist_lt (c_cs c) p r (c_cutoff c) = true -> In r ns) /\
    (lookup_unique (c_cs c) (c_cutoff c) -> exists rest, Permutation (ns ++ rest) (cl_flat (c_refined c))).
Proof. intros G Hp. destruct (refined_neighbour_ok G Hp) as [vs E].
  assert (Lf : length (get_frac (c_cs c) p) = length (cl_num (c_refined c))).
  { rewrite (cg_num_r G), num_cells_length. apply get_frac_length; auto. }
  exists vs. split; [auto|]. split; [|split].
  - intros r Hr. apply (in_neighbour_values _ _ _ _ r (cg_refined G) Lf E) in Hr. tauto.
  - intros Hc r Hr Hd.
    eapply (near_in_lookup (cl := c_refined c) (fun p => p) (cs := c_cs c) (cutoff := c_cutoff c)); eauto; try apply G.
    pose proof (cg_pos_r G) as HP. rewrite Forall_forall in HP. auto.
  - intros Hu. apply (neighbour_values_multiplicity _ _ _ vs (cg_refined G) Lf); auto.
    intros Per. rewrite (cg_num_r G). apply Hu. rewrite <- (cg_per_r G). auto. Qed.
