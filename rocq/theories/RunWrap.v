(** Model of nodefinder/search/_run.py: [run_async] after the search has ended, and
    the synchronous wrapper [run].  [asyncio] itself is reduced to: what
    [get_event_loop] finds, and [run_until_complete], which gives the outcome of the
    coroutine. *)
From Coq Require Import String.
From Verif Require Import Base CoordSys CellList Values Container Queue Hdf5 Controller SaveFile.
Open Scope list_scope.

(** What the calling thread finds: no event loop ([get_event_loop] raises), an
    event loop that is not running, a closed one, or a running one (as in Jupyter). *)
Inductive loop_state := NoLoop | IdleLoop | ClosedLoop | RunningLoop.

(** What a caller observes. *)
Inductive observed (A : Type) := Returns (a : A) | Raises (e : exn) | NeverReturns.
Arguments Returns {A}. Arguments Raises {A}. Arguments NeverReturns {A}.

(** [loop.run_until_complete(coroutine)] in a loop that is not running *)
Definition run_until_complete {A} (closed : bool) (o : res A) : res A := if closed then Err RuntimeError else o.

(** Event loops that [run] has created and not closed; is the caller's loop closed? *)
Record loops := mk_loops { l_leaked : nat; l_callers_closed : bool }.

(** _run.py:185-197 [_run_in_thread]: contents of [res_queue] and [exc_queue] when
    the thread has ended, and whether its loop was closed *)
Definition run_in_thread {A} (o : res A) : list A * list exn * bool :=
  match run_until_complete false o with
  | Ok r => ([r], [], true)
  | Err e => if is_exception e then ([], [e], false) else ([], [], false)
  end.

(** _run.py:136-182 [run] *)
Definition run {A} (l : loop_state) (o : res A) : observed A * loops :=
  let close_loop := match l with NoLoop => true | _ => false end in
  let callers_closed := match l with ClosedLoop => true | _ => false end in
  match l with
  | RunningLoop =>
    let '(res_queue, exc_queue, closed) := run_in_thread o in
    let ls := mk_loops (if closed then 0 else 1) callers_closed in
    match exc_queue with
    | e :: _ => (Raises e, ls)
    | [] => match res_queue with
            | r :: _ => (Returns r, ls)
            | [] => (NeverReturns, ls)     (* Queue.get() on an empty queue blocks *)
            end
    end
  | _ =>
    let created := match l with NoLoop => 1%nat | _ => 0%nat end in
    let closed := if close_loop then 1%nat else 0%nat in      (* the [finally] block *)
    let ls := mk_loops (created - closed)%nat callers_closed in
    match run_until_complete callers_closed o with
    | Ok r => (Returns r, ls)
    | Err e => (Raises e, ls)
    end
  end.

(** _run.py:108-133 [run_async], once the search has ended *)
Definition async_outcome (k : ctrl) : option (res container) :=
  match k_phase k with
  | Returned => Some (Ok (st_result (k_state k)))
  | Raised e => Some (Err e)
  | _ => None
  end.
