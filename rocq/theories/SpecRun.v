(** Specification vocabulary for complete runs: fair infinite schedules, and runs in
    which the results are those of actual minimizations of a potential. *)
From Coq Require Import String.
From Verif Require Import Base CoordSys SpecGeom CellList Values Container SpecContainer Queue Hdf5 NelderMead SpecMin Controller SpecSearch.
Open Scope list_scope.
Open Scope Qc_scope.

(** Simplices whose minimization has not ended. *)
Definition unfinished (k : ctrl) : list simplex :=
  map t_simplex (filter (fun t => match t_status t with Pending => true | _ => false end) (k_tasks k)).

(** The search has ended, normally or with an exception. *)
Definition over (k : ctrl) : Prop := k_phase k = Returned \/ exists e, k_phase k = Raised e.

(** An infinite schedule ([ESaveFailed] is the idle event) in which every
    minimization ends, the scheduler always gets its turn, and the final [gather]
    is executed once it is reached. *)
Record fair_run (g : config) (s : controller_state) (file : option tree) (k : nat -> ctrl) (ev : nat -> event) : Prop := {
  fr_start : k 0%nat = start s file;
  fr_step : forall i, valid_event (g_cs g) (ev i) /\ step g (k i) (ev i) = Some (k (Datatypes.S i));
  fr_ends : forall i x, In x (unfinished (k i)) -> exists j, (i <= j)%nat /\ ~ In x (unfinished (k j));
  fr_turn : forall i, k_phase (k i) = Running -> exists j pick, (i <= j)%nat /\ (k_phase (k j) = Running -> ev j = ETurn pick);
  fr_gather : forall i, k_phase (k i) = Draining -> exists j pick, (i <= j)%nat /\ ev j = EGather pick
}.

(** ** Runs on a potential
    [evals x v]: an evaluation at [x] can give [v]; [raises x e]: it can raise [e].
    The outcome of a minimization started at [x], with the fake potential (if used)
    evaluated against result containers of this search's geometry. *)
Definition minimized (g : config) (p : nm_params) (evals : point -> fval -> Prop) (raises : point -> exn -> Prop) (x : simplex) (o : res result) : Prop :=
  exists argsort func fake, argsort_ok argsort /\
    (forall k y v, func k y = Ok v -> evals y v) /\ (forall k y e, func k y = Err e -> raises y e) /\
    (forall fk, fake = Some fk -> forall k y, is_pos (g_cs g) y ->
       exists c rs ps, history (g_cs g) (g_gap g) (g_cutoff g) rs ps c /\ fk k y = fake_potential c (g_cutoff g) y) /\
    match o with
    | Ok r => exists ow w, run_minimization argsort func fake p x = Ok (r, ow, w)
    | Err e => run_minimization argsort func fake p x = Err e
    end.

Definition honest_event (g : config) (p : nm_params) evals raises (k : ctrl) (ev : event) : Prop :=
  match ev with
  | EDone i r => forall x, nth_error (k_tasks k) i = Some (mk_task x Pending) -> minimized g p evals raises x (Ok r)
  | EFail i e => forall x, nth_error (k_tasks k) i = Some (mk_task x Pending) -> minimized g p evals raises x (Err e)
  | ESave order => forall l, Permutation (order l) l
  | _ => True
  end.

Inductive search (g : config) (p : nm_params) (evals : point -> fval -> Prop) (raises : point -> exn -> Prop)
    (s : controller_state) (file : option tree) : ctrl -> Prop :=
| search_start : search g p evals raises s file (start s file)
| search_step k ev k' : search g p evals raises s file k -> honest_event g p evals raises k ev ->
    step g k ev = Some k' -> search g p evals raises s file k'.

(** All starting simplices are proper ([dim] + 1 points of dimension [dim >= 1]). *)
Definition proper_simplices (g : config) (Q : list simplex) : Prop :=
  Forall (is_simplex (List.length (limits (g_cs g)))) Q /\
  forall st, g_stencil g = Some st -> Forall (is_simplex (List.length (limits (g_cs g)))) st.
