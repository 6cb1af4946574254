(** Model of nodefinder/identify/_cluster.py.  Distances are compared on squares of
    rationals; the stored edge distance is the real number. *)
From Verif Require Import Base CoordSys CoordSysR Graph.
From Coq Require Import Reals.
Open Scope list_scope.

(** _cluster.py:60-66: the edges from [p] to the later positions *)
Definition link_one (cs : coordsys) (fs : Qc) (g : graph point R) (p : point) (candidates : list point) : graph point R :=
  fold_left (fun g q => if dist_le cs p q fs then add_edge g p q (distance cs p q) else g) candidates g.
(** _cluster.py:59-66: the loop over the positions *)
Fixpoint link_all (cs : coordsys) (fs : Qc) (g : graph point R) (us : list point) : graph point R :=
  match us with
  | [] => g
  | p :: rest => link_all cs fs (link_one cs fs g p rest) rest
  end.
(** _cluster.py:47-66 [_create_graph]; [order] enumerates the set of positions *)
Definition create_graph (order : list point -> list point) (cs : coordsys) (fs : Qc) (positions : list point) : graph point R :=
  let pos_unique := order (dedup positions) in
  link_all cs fs (fold_left (@add_node point R _) pos_unique empty_graph) pos_unique.

(** _cluster.py:16-44 [create_clusters] *)
Definition create_clusters (order : list point -> list point) (eorder : list (point * point * R) -> list (point * point * R))
    (cs : coordsys) (fs : Qc) (positions : list point) : list (graph point R) :=
  let graph := create_graph order cs fs positions in
  map (subgraph order eorder graph) (components graph).
