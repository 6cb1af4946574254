(** Specification vocabulary for queues. *)
From Verif Require Import Base CoordSys Queue.

(** A client's operations on a running queue. *)
Inductive qop (A : Type) := QAdd (batch : list A) | QPop | QFinish (o : A).
Arguments QAdd {A}.
Arguments QPop {A}.
Arguments QFinish {A}.

(** Execute operations; returns the final queue and the objects popped, in
    order. *)
Fixpoint run_qops {A} `{EqDec A} (norm : A -> A) (q : queue A) (ops : list (qop A)) : res (queue A * list A) :=
  match ops with
  | [] => Ok (q, [])
  | QAdd b :: ops' => run_qops norm (add_objects norm q b) ops'
  | QPop :: ops' =>
    let! qo := pop_running q in
    let! r := run_qops norm (fst qo) ops' in
    Ok (fst r, snd qo :: snd r)
  | QFinish o :: ops' =>
    let! q' := set_finished q o in run_qops norm q' ops'
  end.

(** All objects passed to [add_objects], in order. *)
Fixpoint added {A} (ops : list (qop A)) : list A :=
  match ops with
  | [] => []
  | QAdd b :: ops' => b ++ added ops'
  | _ :: ops' => added ops'
  end.
(** The objects marked as finished, in order. *)
Fixpoint finished_objs {A} (ops : list (qop A)) : list A :=
  match ops with
  | [] => []
  | QFinish o :: ops' => o :: finished_objs ops'
  | _ :: ops' => finished_objs ops'
  end.
(** No batch contains two objects with the same normal form. *)
Fixpoint batches_nodup {A} (norm : A -> A) (ops : list (qop A)) : Prop :=
  match ops with
  | [] => True
  | QAdd b :: ops' => NoDup (map norm b) /\ batches_nodup norm ops'
  | _ :: ops' => batches_nodup norm ops'
  end.
(** First occurrences, in order (spec of "distinct objects in order of first
    insertion"). *)
Fixpoint first_occurrences {A} `{EqDec A} (seen : list A) (l : list A) : list A :=
  match l with
  | [] => []
  | x :: l' => if mem x seen then first_occurrences seen l' else x :: first_occurrences (x :: seen) l'
  end.
