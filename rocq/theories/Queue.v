(** Model of nodefinder/search/_queue.py.

    A Python [set] is a duplicate-free list; the order in which [list(set)]
    enumerates it is the parameter [order]. *)
From Verif Require Import Base CoordSys.
Open Scope Qc_scope.

(** _queue.py:25-31 and 91-93.  [PositionQueue] has no running objects; its
    [q_running] stays empty. *)
Record queue (A : Type) := mk_queue {
  q_queued : list A;        (* _queued_objects *)
  q_all : list A;           (* _all_objects (a set) *)
  q_running : list A;       (* _running_objects (a set) *)
  q_needs_saving : bool
}.
Arguments mk_queue {A}.
Arguments q_queued {A}.
Arguments q_all {A}.
Arguments q_running {A}.
Arguments q_needs_saving {A}.

Section Ops.
  Context {A : Type} `{EqDec A}.
  Variable norm : A -> A.      (* [normalize] of one object *)

  (** _queue.py:25-31, 91-93 [__init__] *)
  Definition queue_new (objects : list A) : queue A :=
    let all := map norm objects in
    {| q_queued := all; q_all := dedup all; q_running := []; q_needs_saving := true |}.

  (** _queue.py:44-55 [add_objects] *)
  Definition add_objects (q : queue A) (objects : list A) : queue A :=
    let new := map norm objects in
    let filtered := filter (fun o => negb (mem o (q_all q))) new in
    match filtered with
    | [] => q
    | _ => {| q_queued := q_queued q ++ filtered; q_all := set_update (q_all q) filtered;
              q_running := q_running q; q_needs_saving := true |}
    end.

  (** _queue.py:41-42 [ObjectQueue.pop_queued] *)
  Definition pop_object (q : queue A) : res (queue A * A) :=
    match q_queued q with
    | [] => Err QueueEmpty
    | o :: os => Ok ({| q_queued := os; q_all := q_all q; q_running := q_running q;
                        q_needs_saving := q_needs_saving q |}, o)
    end.
  (** _queue.py:101-107 [RunningQueue.pop_queued] *)
  Definition pop_running (q : queue A) : res (queue A * A) :=
    let! qo := pop_object q in
    let (q', o) := qo in
    Ok ({| q_queued := q_queued q'; q_all := q_all q'; q_running := set_add o (q_running q');
           q_needs_saving := q_needs_saving q' |}, o).

  (** _queue.py:109-114 [set_finished]; [set.remove] raises KeyError *)
  Definition set_finished (q : queue A) (o : A) : res (queue A) :=
    if mem o (q_running q)
    then Ok {| q_queued := q_queued q; q_all := q_all q; q_running := remove_all o (q_running q);
               q_needs_saving := true |}
    else Err KeyError.

  (** _queue.py:65-70 *)
  Definition has_queued (q : queue A) : bool := match q_queued q with [] => false | _ => true end.
  (** _queue.py:37-39, 95-99 [objects] *)
  Definition objects (order : list A -> list A) (q : queue A) : list A :=
    order (q_running q) ++ q_queued q.
  (** _queue.py:116-121 *)
  Definition finished (order : list A -> list A) (q : queue A) : bool :=
    match objects order q with [] => true | _ => false end.
  (** _queue.py:123-128 *)
  Definition num_running (q : queue A) : nat := length (q_running q).

  Definition set_q_needs_saving (q : queue A) (b : bool) : queue A :=
    {| q_queued := q_queued q; q_all := q_all q; q_running := q_running q; q_needs_saving := b |}.
End Ops.

Notation simplex := (list (list Qc)).

(** _queue.py:137-142 [SimplexQueue.normalize], one simplex *)
Definition norm_simplex (s : simplex) : simplex := sort_by (lex_leb ltb) s.
(** _queue.py:151-153 [PositionQueue.normalize], one position *)
Definition norm_pos (p : point) : point := p.
