(** Model of nodefinder/search/_controller.py as an event-driven transition
    system.

    The coroutine [create_tasks] and the minimization tasks run in one thread and
    are interleaved only at [await]s.  An event is one uninterrupted piece of
    execution:
    - [ETurn]: [create_tasks] from one [await asyncio.sleep(0.)] to the next,
    - [EDone i r] / [EFail i e]: task number [i] resumes after its minimization
      ended with the result [r] or an exception and runs to its end,
    - [ESave] / [ESaveFailed]: the periodic task calls [save],
    - [EGather]: the final [await asyncio.gather(...)] completes.
    The order of events, the results of minimizations, the exceptions and the
    iteration order of sets are chosen by the environment. *)
From Coq Require Import String.
From Verif Require Import Base CoordSys CellList Values Container Queue Mesh Hdf5.
Open Scope list_scope.
Open Scope Qc_scope.

(** _controller.py:39-110: the attributes that do not change during the run.
    [g_stencil] is the refinement stencil already multiplied by the cutoff.
    Integers that are only compared with counts are natural numbers. *)
Record config := mk_config {
  g_cs : coordsys;
  g_gap : fval;
  g_cutoff : Qc;
  g_stencil : option (list simplex);
  g_parallel : nat;
  g_recheck : bool;
  g_count_cutoff : nat;
  g_simplex_cutoff : nat
}.

(** _controller.py:29, 73 *)
Definition dist_cutoff (feature_size : Qc) : Qc := feature_size / qc 3.
(** _controller.py:96 [refinement_stencil * self.dist_cutoff] *)
Definition scale_stencil (cutoff : Qc) (st : list simplex) : list simplex :=
  map (map (map (fun x => x * cutoff))) st.
(** [pos + self.refinement_stencil] *)
Definition translate (pos : point) (st : list simplex) : list simplex := map (map (vadd pos)) st.

(** A future in [task_futures] *)
Inductive tstatus := Pending | Completed | Failed (e : exn).
Record task := mk_task { t_simplex : simplex; t_status : tstatus }.

(** [Running]: in the loop; [Draining]: waiting for the final gather. *)
Inductive phase := Running | Draining | Returned | Raised (e : exn).

(** What the search has done so far, in order; not read by the program. *)
Inductive action :=
| AStart (s : simplex)
| ADiscard (s : simplex)
| ARecord (s : simplex) (r : result)
| ARefine (p : point)
| ASkip (p : point)
| AQueue (p : point).         (* position scheduled for refinement *)

Record ctrl := mk_ctrl {
  k_state : controller_state;
  k_tasks : list task;
  k_phase : phase;
  k_log : list action;
  k_file : option tree          (* contents of the save file *)
}.

Definition with_result (s : controller_state) (c : container) : controller_state :=
  {| st_result := c; st_simplex := st_simplex s; st_position := st_position s |}.
Definition with_simplex (s : controller_state) (q : queue simplex) : controller_state :=
  {| st_result := st_result s; st_simplex := q; st_position := st_position s |}.
Definition with_position (s : controller_state) (q : queue point) : controller_state :=
  {| st_result := st_result s; st_simplex := st_simplex s; st_position := q |}.

(** _controller_state.py:27-29 *)
Definition needs_saving (s : controller_state) : bool :=
  c_needs_saving (st_result s) || q_needs_saving (st_simplex s) || q_needs_saving (st_position s).
(** _controller_state.py:31-36 *)
Definition clear_needs_saving (s : controller_state) : controller_state :=
  {| st_result := set_c_needs_saving (st_result s) false;
     st_simplex := set_q_needs_saving (st_simplex s) false;
     st_position := set_q_needs_saving (st_position s) false |}.

(** Outcome of an uninterrupted piece of code that may raise after having changed
    the state. *)
Definition outcome : Type := controller_state * list action * option exn.

(** _controller.py:204-222: the loop that refines positions until a simplex is
    queued; [ps] is the list of queued positions, used as recursion bound *)
Fixpoint refine_loop (g : config) (ps : list point) (s : controller_state) (log : list action) : outcome :=
  if has_queued (st_simplex s) then (s, log, None)
  else match ps with
  | [] => (s, log, None)
  | _ :: ps' =>
    match pop_object (st_position s) with
    | Err e => (s, log, Some e)
    | Ok (pq, pos) =>
      let s := with_position s pq in
      match (if g_recheck g then check_pos_refinement (st_result s) (g_cutoff g) (g_count_cutoff g) pos else Ok true) with
      | Err e => (s, log, Some e)
      | Ok true =>
        match g_stencil g with
        | None => (s, log, Some TypeError)
        | Some st =>
          let s := with_simplex s (add_objects norm_simplex (st_simplex s) (translate pos st)) in
          match set_refined (st_result s) pos with
          | Err e => (s, log, Some e)
          | Ok c => refine_loop g ps' (with_result s c) (log ++ [ARefine pos])
          end
        end
      | Ok false => refine_loop g ps' s (log ++ [ASkip pos])
      end
    end
  end.

(** _controller.py:200-230: start minimizations up to the parallelism limit *)
Fixpoint fill (fuel : nat) (g : config) (s : controller_state) (tasks : list task) (log : list action)
    : controller_state * list task * list action * option exn :=
  if (num_running (st_simplex s) <? g_parallel g)%nat then
    match fuel with
    | O => (s, tasks, log, Some OutOfFuel)
    | Datatypes.S fuel' =>
      let '(s, log, e) := refine_loop g (q_queued (st_position s)) s log in
      match e with
      | Some e => (s, tasks, log, Some e)
      | None =>
        if has_queued (st_simplex s) then
          match pop_running (st_simplex s) with
          | Err e => (s, tasks, log, Some e)
          | Ok (q, sx) =>
            let s := with_simplex s q in
            match check_simplex (st_result s) (g_cutoff g) (g_simplex_cutoff g) sx with
            | Err e => (s, tasks, log, Some e)
            | Ok true => fill fuel' g s (tasks ++ [mk_task sx Pending]) (log ++ [AStart sx])
            | Ok false =>
              match set_finished (st_simplex s) sx with
              | Err e => (s, tasks, log, Some e)
              | Ok q => fill fuel' g (with_simplex s q) tasks (log ++ [ADiscard sx])
              end
            end
          end
        else (s, tasks, log, None)
      end
    end
  else (s, tasks, log, None).
Definition stencil_size (g : config) : nat := match g_stencil g with Some st => length st | None => 0 end.
Definition fill_fuel (g : config) (s : controller_state) : nat :=
  Datatypes.S (length (q_queued (st_simplex s)) + length (q_queued (st_position s)) * stencil_size g).

(** _controller.py:196-198: the loop condition *)
Definition loop_condition (s : controller_state) : bool :=
  negb (finished (fun l => l) (st_simplex s)) || has_queued (st_position s).

(** _controller.py:236-240: the exceptions of the tasks that are done *)
Definition exceptions (tasks : list task) : list exn :=
  flat_map (fun t => match t_status t with Failed e => [e] | _ => [] end) tasks.
(** _controller.py:236, 242: the tasks that are not done *)
Definition pending (tasks : list task) : list task :=
  filter (fun t => match t_status t with Pending => true | _ => false end) tasks.
(** [exceptions[0]], where the set of futures is enumerated in some order *)
Definition some_exception (pick : nat) (es : list exn) : option exn :=
  match es with [] => None | e :: _ => Some (nth (pick mod length es) es e) end.

(** _controller.py:196-242: from after one [await asyncio.sleep(0.)] (or the
    start) to the next (or the end of the loop) *)
Definition turn (g : config) (k : ctrl) (pick : nat) : ctrl :=
  match some_exception pick (exceptions (k_tasks k)) with
  | Some e => mk_ctrl (k_state k) (k_tasks k) (Raised e) (k_log k) (k_file k)
  | None =>
    let tasks := pending (k_tasks k) in
    if loop_condition (k_state k) then
      let '(s, tasks, log, e) := fill (fill_fuel g (k_state k)) g (k_state k) tasks (k_log k) in
      mk_ctrl s tasks (match e with Some e => Raised e | None => Running end) log (k_file k)
    else mk_ctrl (k_state k) tasks Draining (k_log k) (k_file k)
  end.

(** _controller.py:264-274 [process_result] and 261-262.  [result.pos] was
    replaced by the normalised position in [add_result]. *)
Definition process_result (g : config) (s : controller_state) (log : list action) (sx : simplex) (r : result) : outcome :=
  match add_result (st_result s) r with
  | Err e => (s, log, Some e)
  | Ok (c, is_node) =>
    let s := with_result s c in
    let log := log ++ [ARecord sx r] in
    let pos := normalize_position (c_cs c) (pos_of r) in
    if (is_node && match g_stencil g with Some _ => true | None => false end)%bool then
      match check_pos_refinement (st_result s) (g_cutoff g) 0 pos with
      | Err e => (s, log, Some e)
      | Ok true => (with_position s (add_objects norm_pos (st_position s) [pos]), log ++ [AQueue pos], None)
      | Ok false => (s, log, None)
      end
    else (s, log, None)
  end.

Fixpoint set_status (i : nat) (st : tstatus) (tasks : list task) : list task :=
  match tasks, i with
  | [], _ => []
  | t :: ts, O => mk_task (t_simplex t) st :: ts
  | t :: ts, Datatypes.S i' => t :: set_status i' st ts
  end.

(** _controller.py:251-262 [run_simplex] after the minimization has ended *)
Definition finish_task (g : config) (k : ctrl) (i : nat) (sx : simplex) (r : result) : ctrl :=
  let '(s, log, e) := process_result g (k_state k) (k_log k) sx r in
  match e with
  | Some e => mk_ctrl s (set_status i (Failed e) (k_tasks k)) (k_phase k) log (k_file k)
  | None =>
    match set_finished (st_simplex s) sx with
    | Err e => mk_ctrl s (set_status i (Failed e) (k_tasks k)) (k_phase k) log (k_file k)
    | Ok q => mk_ctrl (with_simplex s q) (set_status i Completed (k_tasks k)) (k_phase k) log (k_file k)
    end
  end.

Inductive event :=
| ETurn (pick : nat)
| EDone (i : nat) (r : result)
| EFail (i : nat) (e : exn)
| ESave (order : list simplex -> list simplex)
| ESaveFailed
| EGather (pick : nat).

(** One event; [None] if it cannot happen in this state. *)
Definition step (g : config) (k : ctrl) (ev : event) : option ctrl :=
  match ev with
  | ETurn pick => match k_phase k with Running => Some (turn g k pick) | _ => None end
  | EDone i r =>
    match nth_error (k_tasks k) i with
    | Some (mk_task sx Pending) => Some (finish_task g k i sx r)
    | _ => None
    end
  | EFail i e =>
    match nth_error (k_tasks k) i with
    | Some (mk_task sx Pending) =>
      Some (mk_ctrl (k_state k) (set_status i (Failed e) (k_tasks k)) (k_phase k) (k_log k) (k_file k))
    | _ => None
    end
  (** _controller.py:307-321 [save], when it succeeds (SaveFile.v has the steps) *)
  | ESave order =>
    if needs_saving (k_state k)
    then Some (mk_ctrl (clear_needs_saving (k_state k)) (k_tasks k) (k_phase k) (k_log k) (Some (enc_state order (k_state k))))
    else Some k
  | ESaveFailed => Some k
  (** _controller.py:243 *)
  | EGather pick =>
    match k_phase k, pending (k_tasks k) with
    | Draining, [] =>
      Some (mk_ctrl (k_state k) (k_tasks k)
              (match some_exception pick (exceptions (k_tasks k)) with Some e => Raised e | None => Returned end)
              (k_log k) (k_file k))
    | _, _ => None
    end
  end.

Fixpoint run_events (g : config) (k : ctrl) (evs : list event) : option ctrl :=
  match evs with
  | [] => Some k
  | ev :: evs' => match step g k ev with Some k' => run_events g k' evs' | None => None end
  end.

(** The controller just after construction (the save file may already exist). *)
Definition start (s : controller_state) (file : option tree) : ctrl := mk_ctrl s [] Running [] file.

(** ** Construction of the initial state *)

Inductive mesh_arg := MeshInt (n : nat) | MeshList (l : list nat).
(** _controller.py:112-126 [check_dimensions] *)
Definition check_dimensions (limits : list (Qc * Qc)) (mesh : mesh_arg) : res (nat * list nat) :=
  let mesh_size := match mesh with MeshInt n => repeat n (length limits) | MeshList l => l end in
  if (length limits =? length mesh_size)%nat then Ok (length limits, mesh_size) else Err ValueError.

(** _controller.py:181-186 [get_initial_simplices] *)
Definition get_initial_simplices (cs : coordsys) (mesh_size : list nat) : res (list simplex) :=
  generate_mesh_simplices (limits cs) mesh_size (periodic cs) false.

(** _controller.py:128-179 [create_state].  [load_file] is what [io.load] of the save
    file does; [order] enumerates the running simplices of a given state. *)
Definition create_state (order : list simplex -> list simplex) (cs : coordsys) (gap : fval) (cutoff : Qc)
    (initial_state : option controller_state) (load load_quiet : bool) (load_file : res controller_state)
    (mesh_size : list nat) (force_initial_mesh : bool) : res controller_state :=
  let! initial_state :=
    if load then
      match initial_state with
      | Some _ => Err ValueError
      | None =>
        match load_file with
        | Ok s => Ok (Some s)
        | Err IOError => if load_quiet then Ok None else Err IOError
        | Err e => Err e
        end
      end
    else Ok initial_state in
  match initial_state with
  | Some s0 =>
    let! result := container_new cs gap cutoff (minimization_results (st_result s0)) (cl_flat (c_refined (st_result s0))) in
    let sq := queue_new norm_simplex (objects order (st_simplex s0)) in
    let pq := queue_new norm_pos (objects (fun l => l) (st_position s0)) in
    if force_initial_mesh then
      let! ss := get_initial_simplices cs mesh_size in
      Ok {| st_result := result; st_simplex := add_objects norm_simplex sq ss; st_position := pq |}
    else Ok {| st_result := result; st_simplex := sq; st_position := pq |}
  | None =>
    let! result := container_new cs gap cutoff [] [] in
    let! ss := get_initial_simplices cs mesh_size in
    Ok {| st_result := result; st_simplex := queue_new norm_simplex ss; st_position := queue_new norm_pos [] |}
  end.

(** _controller.py:39-110 [Controller.__init__], the parts that can fail *)
Definition controller_init (order : list simplex -> list simplex) (limits : list (Qc * Qc)) (per : bool) (gap : fval) (cutoff : Qc)
    (initial_state : option controller_state) (load load_quiet : bool) (load_file : res controller_state)
    (mesh : mesh_arg) (force_initial_mesh : bool) : res controller_state :=
  let cs := coordinate_system limits per in
  let! dm := check_dimensions limits mesh in
  create_state order cs gap cutoff initial_state load load_quiet load_file (snd dm) force_initial_mesh.
