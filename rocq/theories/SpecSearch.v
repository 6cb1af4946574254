(** Independent specification vocabulary for whole searches. *)
From Coq Require Import String.
From Verif Require Import Base CoordSys SpecGeom CellList Values Container SpecContainer Queue Hdf5 SpecHdf5 Controller.
Open Scope list_scope.
Open Scope Qc_scope.

(** Projections of the list of actions of a search. *)
Definition started (l : list action) : list simplex := flat_map (fun a => match a with AStart s => [s] | _ => [] end) l.
Definition discarded (l : list action) : list simplex := flat_map (fun a => match a with ADiscard s => [s] | _ => [] end) l.
Definition recorded (l : list action) : list (simplex * result) := flat_map (fun a => match a with ARecord s r => [(s, r)] | _ => [] end) l.
Definition refined (l : list action) : list point := flat_map (fun a => match a with ARefine p => [p] | _ => [] end) l.
Definition skipped (l : list action) : list point := flat_map (fun a => match a with ASkip p => [p] | _ => [] end) l.
Definition to_refine (l : list action) : list point := flat_map (fun a => match a with AQueue p => [p] | _ => [] end) l.

(** The simplices placed around the refined positions, in normal form. *)
Definition refinements (g : config) (l : list action) : list simplex :=
  match g_stencil g with
  | Some st => flat_map (fun p => map norm_simplex (map (map (vadd p)) st)) (refined l)
  | None => []
  end.

(** A queue in which exactly the objects [l] (in normal form, distinct) wait and none
    is being processed. *)
Definition waiting {A} (norm : A -> A) (q : queue A) (l : list A) : Prop :=
  q_queued q = l /\ q_running q = [] /\ NoDup l /\ Forall (fun x => norm x = x) l /\ (forall x, In x (q_all q) <-> In x l).

(** Simplices currently being minimized or whose minimization failed. *)
Definition in_flight (k : ctrl) : list simplex :=
  map t_simplex (filter (fun t => match t_status t with Completed => false | _ => true end) (k_tasks k)).
Definition running_now (k : ctrl) : nat := length (filter (fun t => match t_status t with Pending => true | _ => false end) (k_tasks k)).

(** What a minimization returns: a position of the right dimension; no position set
    on a joined result. *)
Definition fresh_result (cs : coordsys) (r : result) : Prop :=
  match r with Plain m => is_pos cs (r_pos m) | Joined c _ o => is_pos cs (r_pos c) /\ o = None end.

(** Events the environment can produce. *)
Definition valid_event (cs : coordsys) (ev : event) : Prop :=
  match ev with
  | EDone _ r => fresh_result cs r
  | ESave order => forall l, Permutation (order l) l
  | _ => True
  end.

(** A search that can be started: a proper box, a usable stencil (or none), and a
    state with results [rs], refined positions [ps], simplices [Q] and positions
    [P] waiting, not yet saved.  Without a stencil no position may wait. *)
Record good_config (g : config) : Prop := {
  gc_box : wf_box (g_cs g);
  gc_lookup : lookup_complete (g_cs g) (g_cutoff g);
  gc_stencil : forall st, g_stencil g = Some st ->
    NoDup (map norm_simplex st) /\ Forall (Forall (is_pos (g_cs g))) st
}.
Record good_start (g : config) (s : controller_state) (rs : list result) (ps : list point) (Q : list simplex) (P : list point) : Prop := {
  gs_result : history (g_cs g) (g_gap g) (g_cutoff g) rs ps (st_result s);
  gs_simplex : waiting norm_simplex (st_simplex s) Q;
  gs_position : waiting norm_pos (st_position s) P;
  gs_vertices : Forall (Forall (is_pos (g_cs g))) Q;
  gs_positions : Forall (is_pos (g_cs g)) P;
  gs_stencil : g_stencil g = None -> P = [];
  gs_unsaved : needs_saving s = true
}.

(** [k] is reached from the start state by some possible events. *)
Definition reaches (g : config) (s : controller_state) (file : option tree) (k : ctrl) : Prop :=
  exists evs, Forall (valid_event (g_cs g)) evs /\ run_events g (start s file) evs = Some k.

(** The known nodes of a container's history. *)
Definition nodes_of (g : config) (rs : list result) : list result :=
  filter (is_node (g_gap g)) (map (stored (g_cs g)) rs).

(** Any two entries at different places of the list are at least [c] apart. *)
Definition separated (cs : coordsys) (c : Qc) (l : list point) : Prop :=
  forall i j p q, (i < j)%nat -> nth_error l i = Some p -> nth_error l j = Some q -> dist_lt cs q p c = false.

(** A number depending only on the box and [c > 0]: the number of cells when each
    edge is divided into pieces of length at most [c / dim]. *)
Definition packing_bound (cs : coordsys) (c : Qc) : nat :=
  fold_right Nat.mul 1%nat
    (map (fun l => Datatypes.S (Z.to_nat (qfloor ((snd l - fst l) / (c / qc (Z.of_nat (List.length (limits cs)))))))) (limits cs)).

(** [snap] holds the same results, refined positions and pending simplices as
    [live], and at least its pending positions. *)
Record snapshot_of (snap live : controller_state) : Prop := {
  so_nodes : cl_flat (c_nodes (st_result snap)) = cl_flat (c_nodes (st_result live));
  so_rejected : c_rejected (st_result snap) = c_rejected (st_result live);
  so_refined : cl_flat (c_refined (st_result snap)) = cl_flat (c_refined (st_result live));
  so_simplices : Permutation (q_running (st_simplex snap) ++ q_queued (st_simplex snap)) (q_running (st_simplex live) ++ q_queued (st_simplex live));
  so_positions : incl (q_queued (st_position live)) (q_queued (st_position snap))
}.
