(** Initial states of a search: fresh, restored, and the decisions between them. *)
From Coq Require Import String.
From Verif Require Import Base BaseFacts CoordSys SpecGeom CoordSysFacts CellList CellListFacts Values Container SpecContainer ContainerFacts ContainerHist
  Queue QueueFacts SpecQueue Mesh SpecMesh MeshFacts Hdf5 SpecHdf5 Controller SpecSearch SearchRestart NelderMead SpecMin.
Open Scope list_scope.
Open Scope Qc_scope.

Lemma norm_simplex_pos cs x : Forall (is_pos cs) x -> Forall (is_pos cs) (norm_simplex x).
Proof. rewrite !Forall_forall. intros H p Hp. apply H. apply (Permutation_in _ (norm_simplex_perm x)). auto. Qed.

Lemma mesh_positions cs mesh ss : mesh_args (limits cs) mesh -> get_initial_simplices cs mesh = Ok ss -> Forall (Forall (is_pos cs)) ss.
Proof. intros A E. destruct (mesh_shape _ _ _ _ A E) as (_ & _ & S & _). rewrite Forall_forall in *. intros x Hx.
  destruct (S x Hx) as [(_ & _ & H)|L0]; [exact H|].
  unfold get_initial_simplices, generate_mesh_simplices in E. destruct A as (L & _). rewrite L0 in *. destruct mesh; [|discriminate].
  cbn in E. injection E as <-. destruct Hx as [<- |[]]. repeat constructor. unfold is_pos. rewrite L0. reflexivity. Qed.

Lemma mesh_defined cs mesh : mesh_args (limits cs) mesh -> exists ss, get_initial_simplices cs mesh = Ok ss.
Proof. intros (L & _). unfold get_initial_simplices, generate_mesh_simplices. rewrite L, Nat.eqb_refl. cbn. eauto. Qed.

Lemma norm_idem_list l : Forall (fun x => norm_simplex x = x) (map norm_simplex l).
Proof. apply Forall_forall. intros x Hx. apply in_map_iff in Hx as (y & <- & _). apply norm_simplex_idem. Qed.

Lemma waiting_fresh l : NoDup (map norm_simplex l) -> waiting norm_simplex (queue_new norm_simplex l) (map norm_simplex l).
Proof. intros N. unfold waiting, queue_new. cbn. repeat split; auto; try apply in_dedup. apply norm_idem_list. Qed.

(** A fresh state *)
Lemma fresh_start g order load lf mesh force : good_config g -> mesh_args (limits (g_cs g)) mesh ->
  (load = false \/ (load = true /\ lf = Err IOError)) ->
  exists ss s, generate_mesh_simplices (limits (g_cs g)) mesh (periodic (g_cs g)) false = Ok ss /\
    create_state order (g_cs g) (g_gap g) (g_cutoff g) None load true lf mesh force = Ok s /\
    good_start g s [] [] (map norm_simplex ss) [].
Proof. intros GC A L. destruct (mesh_defined _ _ A) as (ss & E). exists ss.
  destruct (@container_new_ok (g_cs g) (g_gap g) (g_cutoff g) [] [] (gc_box g GC)) as (c & Ec & _ & N); auto.
  eexists. split; [exact E|]. unfold create_state. destruct L as [-> |[-> ->]]; cbn [bind]; rewrite Ec; cbn [bind]; rewrite E; cbn [bind]; (split; [reflexivity|]).
  all: constructor; cbn [st_result st_simplex st_position]; auto.
  all: try (apply hist_new; auto). all: try (apply waiting_fresh; apply (mesh_shape _ _ _ _ A E)).
  all: try (unfold waiting; cbn; repeat split; auto; constructor).
  all: try (unfold needs_saving; cbn [st_result]; rewrite N; reflexivity).
  all: apply Forall_forall; intros x Hx; apply in_map_iff in Hx as (y & <- & Hy); apply norm_simplex_pos.
  all: pose proof (mesh_positions _ _ _ A E) as F; rewrite Forall_forall in F; auto. Qed.

(** States that can be used as initial state of a search in the system [cs]. *)
Record usable_state (g : config) (order : list simplex -> list simplex) (s0 : controller_state) : Prop := {
  us_results : Forall (fun r => is_pos (g_cs g) (pos_of r)) (minimization_results (st_result s0));
  us_refined : Forall (is_pos (g_cs g)) (cl_flat (c_refined (st_result s0)));
  us_nodup : NoDup (objects order (st_simplex s0));
  us_norm : Forall (fun x => norm_simplex x = x) (objects order (st_simplex s0));
  us_verts : Forall (Forall (is_pos (g_cs g))) (objects order (st_simplex s0));
  us_pnodup : NoDup (objects (fun l => l) (st_position s0));
  us_pos : Forall (is_pos (g_cs g)) (objects (fun l => l) (st_position s0));
  us_stencil : g_stencil g = None -> objects (fun l => l) (st_position s0) = []
}.

Definition with_mesh (Q ss : list simplex) : list simplex := Q ++ filter (fun x => negb (mem x Q)) (map norm_simplex ss).

Lemma waiting_add Q ss : NoDup Q -> Forall (fun x => norm_simplex x = x) Q -> NoDup (map norm_simplex ss) ->
  waiting norm_simplex (add_objects norm_simplex (queue_new norm_simplex Q) ss) (with_mesh Q ss).
Proof. intros N F M. destruct (waiting_new norm_simplex Q N F) as (W1 & W2 & W3 & W4 & W5). unfold with_mesh.
  assert (Ef : filter (fun o => negb (mem o (q_all (queue_new norm_simplex Q)))) (map norm_simplex ss) = filter (fun x => negb (mem x Q)) (map norm_simplex ss)).
  { apply filter_ext. intros x. f_equal. destruct (mem x Q) eqn:E; [apply mem_spec in E; apply mem_spec, W5; auto|]. apply mem_false in E. apply mem_false. intros X. apply E, W5. auto. }
  assert (ND : NoDup (Q ++ filter (fun x => negb (mem x Q)) (map norm_simplex ss))).
  { apply NoDup_app_intro; auto; [apply NoDup_filter; auto|]. intros x Hx Hy. apply filter_In in Hy as [_ Hy]. apply negb_true_iff in Hy. apply mem_false in Hy. auto. }
  assert (FN : Forall (fun x => norm_simplex x = x) (Q ++ filter (fun x => negb (mem x Q)) (map norm_simplex ss))).
  { apply Forall_app. split; auto. pose proof (norm_idem_list ss) as X. rewrite Forall_forall in *. intros x Hx. apply filter_In in Hx as [Hx _]. auto. }
  unfold waiting, add_objects. rewrite Ef. destruct (filter (fun x => negb (mem x Q)) (map norm_simplex ss)) as [|y l] eqn:E.
  - rewrite app_nil_r in *. repeat split; auto; apply W5.
  - cbn [q_queued q_running q_all]. rewrite W1, W2. repeat split; auto.
    + intros H. apply in_set_update in H. rewrite in_app_iff. destruct H as [H|H]; auto. left. apply W5. auto.
    + intros H. apply in_set_update. rewrite in_app_iff in H. destruct H as [H|H]; auto. left. apply W5. auto. Qed.

Lemma restored_start g order s0 (load : bool) lf mesh (force : bool) ss : good_config g -> usable_state g order s0 ->
  mesh_args (limits (g_cs g)) mesh -> generate_mesh_simplices (limits (g_cs g)) mesh (periodic (g_cs g)) false = Ok ss ->
  exists s, create_state order (g_cs g) (g_gap g) (g_cutoff g) (if load then None else Some s0) load false (if load then Ok s0 else lf) mesh force = Ok s /\
    good_start g s (minimization_results (st_result s0)) (cl_flat (c_refined (st_result s0)))
      (if force then with_mesh (objects order (st_simplex s0)) ss else objects order (st_simplex s0)) (objects (fun l => l) (st_position s0)).
Proof. intros GC [U1 U2 U3 U4 U5 U6 U7 U8] A E.
  destruct (@container_new_ok (g_cs g) (g_gap g) (g_cutoff g) (minimization_results (st_result s0)) (cl_flat (c_refined (st_result s0))) (gc_box g GC) U1 U2) as (c & Ec & _ & N).
  pose proof (mesh_positions _ _ _ A E) as MP. pose proof (mesh_shape _ _ _ _ A E) as (_ & MN & _).
  assert (Cr : create_state order (g_cs g) (g_gap g) (g_cutoff g) (if load then None else Some s0) load false (if load then Ok s0 else lf) mesh force =
    Ok {| st_result := c; st_simplex := if force then add_objects norm_simplex (queue_new norm_simplex (objects order (st_simplex s0))) ss else queue_new norm_simplex (objects order (st_simplex s0));
          st_position := queue_new norm_pos (objects (fun l => l) (st_position s0)) |}).
  { unfold create_state. destruct load; cbn [bind]; rewrite Ec; cbn [bind]; destruct force; auto; unfold get_initial_simplices; rewrite E; reflexivity. }
  rewrite Cr. eexists. split; [reflexivity|]. constructor; cbn [st_result st_simplex st_position]; auto.
  - apply hist_new; auto.
  - destruct force; [apply waiting_add; auto|apply waiting_new; auto].
  - apply waiting_new; auto. apply Forall_forall. reflexivity.
  - destruct force; auto. unfold with_mesh. apply Forall_app. split; auto. apply Forall_forall. intros x Hx. apply filter_In in Hx as [Hx _].
    apply in_map_iff in Hx as (y & <- & Hy). apply norm_simplex_pos. rewrite Forall_forall in MP. auto.
  - unfold needs_saving. cbn [st_result]. rewrite N. reflexivity. Qed.
