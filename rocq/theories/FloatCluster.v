(** Model, in IEEE double precision, of nodefinder/identify/_cluster.py (Cluster.v is the same in
    exact arithmetic). *)
From Coq Require Import ZArith List.
From Flocq Require Import Core BinarySingleNaN.
From Verif Require Import Base CoordSys Graph Float FloatVector FloatMin FloatCell FloatController.
Import ListNotations.
Open Scope list_scope.

(** equality of tuples of floats ([0.0 == -0.0]; finite coordinates: Python compares identical
    NaN objects as equal in tuples, NaN is left out) *)
Fixpoint tuple_eq (p q : fpoint) : bool :=
  match p, q with
  | [], [] => true
  | x :: p', y :: q' => Beqb x y && tuple_eq p' q'
  | _, _ => false
  end.
(** _cluster.py:55 [set(tuple(pos) for pos in positions)]: the first of equal tuples is kept *)
Definition fset_of (positions : list fpoint) : list fpoint :=
  fold_left (fun s p => if existsb (tuple_eq p) s then s else s ++ [p]) positions [].
(** _cluster.py:60-66: the edges from [p] to the later positions *)
Definition flink_one (per : bool) (boxes : list fbox) (fs : double) (g : graph fpoint double) (p : fpoint) (candidates : list fpoint) : graph fpoint double :=
  fold_left (fun g q => let d := fdist per boxes p q in if dle d fs then add_edge g p q d else g) candidates g.
(** _cluster.py:59-66: the loop over the positions *)
Fixpoint flink_all (per : bool) (boxes : list fbox) (fs : double) (g : graph fpoint double) (us : list fpoint) : graph fpoint double :=
  match us with
  | [] => g
  | p :: rest => flink_all per boxes fs (flink_one per boxes fs g p rest) rest
  end.
(** _cluster.py:47-66 [_create_graph]; [order] enumerates the set *)
Definition fcreate_graph (order : list fpoint -> list fpoint) (per : bool) (boxes : list fbox) (fs : double) (positions : list fpoint) : graph fpoint double :=
  let pos_unique := order (fset_of positions) in
  flink_all per boxes fs (fold_left (@add_node fpoint double _) pos_unique empty_graph) pos_unique.
(** _cluster.py:16-44 [create_clusters] *)
Definition fcreate_clusters (order : list fpoint -> list fpoint) (eorder : list (fpoint * fpoint * double) -> list (fpoint * fpoint * double))
    (per : bool) (boxes : list fbox) (fs : double) (positions : list fpoint) : list (graph fpoint double) :=
  let graph := fcreate_graph order per boxes fs positions in
  map (subgraph order eorder graph) (components graph).
