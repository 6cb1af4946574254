(** Independent specification vocabulary for the result container. *)
From Verif Require Import Base CoordSys SpecGeom CellList Values Container.
Open Scope Qc_scope.

(** What counts as a node: converged and not above the threshold. *)
Definition is_node (gap : fval) (r : result) : bool :=
  success_of r && negb (fgt (value_of r) gap).

(** A result as it is stored: position normalised. *)
Definition stored (cs : coordsys) (r : result) : result :=
  set_pos r (normalize_position cs (pos_of r)).

(** [c] is a container with the given geometry and thresholds to which the
    results [rs] and the refined positions [ps] were passed (constructor or
    methods), in this order; the unsaved flag may have been cleared anywhere. *)
Inductive history (cs : coordsys) (gap : fval) (cutoff : Qc) :
    list result -> list point -> container -> Prop :=
| hist_new rs ps c :
    container_new cs gap cutoff rs ps = Ok c ->
    Forall (fun r => is_pos cs (pos_of r)) rs -> Forall (is_pos cs) ps ->
    history cs gap cutoff rs ps c
| hist_add rs ps c r c' b :
    history cs gap cutoff rs ps c -> is_pos cs (pos_of r) ->
    add_result c r = Ok (c', b) -> history cs gap cutoff (rs ++ [r]) ps c'
| hist_refined rs ps c p c' :
    history cs gap cutoff rs ps c -> is_pos cs p ->
    set_refined c p = Ok c' -> history cs gap cutoff rs (ps ++ [p]) c'
| hist_saved rs ps c b :
    history cs gap cutoff rs ps c -> history cs gap cutoff rs ps (set_c_needs_saving c b).

(** Geometries for which the cell lookup is complete. *)
Definition lookup_complete (cs : coordsys) (cutoff : Qc) : Prop :=
  periodic cs = true \/ Forall (fun l => cutoff <= qc 2 * (snd l - fst l)) (limits cs).

(** Geometries for which no cell is visited twice. *)
Definition lookup_unique (cs : coordsys) (cutoff : Qc) : Prop :=
  periodic cs = true -> Forall (fun n => (3 <= n)%Z) (num_cells cutoff cs).

(** Some node that is not located exactly at [p] is closer to [p] than [width]. *)
Definition node_near (cs : coordsys) (width : Qc) (nodes : list result) (p : point) : bool :=
  existsb (fun r => negb (eqb (pos_of r) p) && dist_lt cs p (pos_of r) width) nodes.

(** Number of elements satisfying a predicate. *)
Definition count {A} (f : A -> bool) (l : list A) : nat := length (filter f l).
