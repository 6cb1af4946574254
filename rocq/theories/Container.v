(** Model of nodefinder/search/result/_search_result_container.py and
    nodefinder/search/_fake_potential.py. *)
From Verif Require Import Base CoordSys CellList Values.
Open Scope Qc_scope.

(** _search_result_container.py:46-83 *)
Record container := mk_container {
  c_cs : coordsys;
  c_gap : fval;
  c_cutoff : Qc;
  c_nodes : cell_list result;
  c_rejected : list result;
  c_refined : cell_list point;
  c_needs_saving : bool
}.

(** _search_result_container.py:59-71: number of cells in one dimension *)
Definition num_cells1 (cutoff : Qc) (l : Qc * Qc) : Z :=
  if eqb cutoff 0 then 100
  else Z.min 100 (Z.max 1 (qtrunc (size1 l / cutoff))).
Definition num_cells (cutoff : Qc) (cs : coordsys) : list Z :=
  map (num_cells1 cutoff) (limits cs).

Definition set_nodes (c : container) (n : cell_list result) : container :=
  {| c_cs := c_cs c; c_gap := c_gap c; c_cutoff := c_cutoff c; c_nodes := n;
     c_rejected := c_rejected c; c_refined := c_refined c; c_needs_saving := c_needs_saving c |}.
Definition set_rejected (c : container) (r : list result) : container :=
  {| c_cs := c_cs c; c_gap := c_gap c; c_cutoff := c_cutoff c; c_nodes := c_nodes c;
     c_rejected := r; c_refined := c_refined c; c_needs_saving := c_needs_saving c |}.
Definition set_refined_cells (c : container) (r : cell_list point) : container :=
  {| c_cs := c_cs c; c_gap := c_gap c; c_cutoff := c_cutoff c; c_nodes := c_nodes c;
     c_rejected := c_rejected c; c_refined := r; c_needs_saving := c_needs_saving c |}.
Definition set_c_needs_saving (c : container) (b : bool) : container :=
  {| c_cs := c_cs c; c_gap := c_gap c; c_cutoff := c_cutoff c; c_nodes := c_nodes c;
     c_rejected := c_rejected c; c_refined := c_refined c; c_needs_saving := b |}.

(** _search_result_container.py:90-106 [add_result].  Line 106
    ([self.needs_saving = True]) is after both [return]s and never runs. *)
Definition add_result (c : container) (r : result) : res (container * bool) :=
  let r := set_pos r (normalize_position (c_cs c) (pos_of r)) in
  if negb (success_of r) || fgt (value_of r) (c_gap c)
  then Ok (set_rejected c (c_rejected c ++ [r]), false)
  else
    let! n := add_point (c_nodes c) (get_frac (c_cs c) (pos_of r)) r in
    Ok (set_nodes c n, true).

(** _search_result_container.py:108-120 [set_refined] *)
Definition set_refined (c : container) (p : point) : res container :=
  let! r := add_point (c_refined c) (get_frac (c_cs c) p) p in
  Ok (set_c_needs_saving (set_refined_cells c r) true).

(** loops over the constructor arguments *)
Fixpoint add_results (c : container) (rs : list result) : res container :=
  match rs with
  | [] => Ok c
  | r :: rs' => let! cb := add_result c r in add_results (fst cb) rs'
  end.
Fixpoint set_refineds (c : container) (ps : list point) : res container :=
  match ps with
  | [] => Ok c
  | p :: ps' => let! c' := set_refined c p in set_refineds c' ps'
  end.

(** _search_result_container.py:46-83 [__init__] *)
Definition container_new (cs : coordsys) (gap : fval) (cutoff : Qc)
    (results : list result) (refined : list point) : res container :=
  let num := num_cells cutoff cs in
  let! nodes := cl_new result num (periodic cs) in
  let! refd := cl_new point num (periodic cs) in
  let c0 := {| c_cs := cs; c_gap := gap; c_cutoff := cutoff; c_nodes := nodes;
               c_rejected := []; c_refined := refd; c_needs_saving := true |} in
  let! c1 := add_results c0 results in
  let! c2 := set_refineds c1 refined in
  Ok (set_c_needs_saving c2 true).

(** _search_result_container.py:122-128 [minimization_results] *)
Definition minimization_results (c : container) : list result :=
  cl_flat (c_nodes c) ++ c_rejected c.

(** _search_result_container.py:130-134 [_get_neighbour_iterator] *)
Definition get_neighbours (c : container) (p : point) : res (list result) :=
  let! cand := get_neighbour_values (c_nodes c) (get_frac (c_cs c) p) in
  Ok (filter (fun r => negb (eqb (pos_of r) p)) cand).

(** _search_result_container.py:136-149 [get_neighbour_distance_iterator] and
    166-181 [get_all_neighbour_distances]: the same distances in the same order
    (here squared) *)
Definition neighbour_distances_sq (c : container) (p : point) : res (list Qc) :=
  let! ns := get_neighbours c p in
  Ok (map (fun r => dist_sq (c_cs c) p (pos_of r)) ns).

(** _search_result_container.py:151-164 [get_refined_neighbour_distance_iterator] *)
Definition refined_distances_sq (c : container) (p : point) : res (list Qc) :=
  let! ps := get_neighbour_values (c_refined c) (get_frac (c_cs c) p) in
  Ok (map (fun q => dist_sq (c_cs c) p q) ps).

(** [dist < cutoff] on a squared distance *)
Definition sq_lt (d2 cutoff : Qc) : bool := ltb 0 cutoff && ltb d2 (cutoff * cutoff).

(** _fake_potential.py:26-32 [__call__] *)
Definition fake_potential (c : container) (width : Qc) (p : point) : res fval :=
  let! ds := neighbour_distances_sq c p in
  Ok (if existsb (fun d => sq_lt d width) ds then PInf else Fin 0).

(** _controller.py:276-290 [_check_pos_refinement] *)
Fixpoint recheck_loop (cutoff : Qc) (count_cutoff count : nat) (ds : list Qc) : bool :=
  match ds with
  | [] => true
  | d :: ds' =>
    let count := if sq_lt d cutoff then S count else count in
    if (count_cutoff <? count)%nat then false
    else recheck_loop cutoff count_cutoff count ds'
  end.
Definition check_pos_refinement (c : container) (cutoff : Qc) (count_cutoff : nat) (p : point) : res bool :=
  let! ds := refined_distances_sq c p in
  Ok (recheck_loop cutoff count_cutoff 0 ds).

(** _controller.py:292-305 [_check_simplex]; the inner loop stops at the first
    neighbour within the cutoff *)
Fixpoint check_simplex_loop (c : container) (cutoff : Qc) (check_cutoff count : nat) (vs : list point) : res bool :=
  match vs with
  | [] => Ok true
  | p :: vs' =>
    let! ds := neighbour_distances_sq c p in
    if existsb (fun d => sq_lt d cutoff) ds then
      if (check_cutoff <? S count)%nat then Ok false
      else check_simplex_loop c cutoff check_cutoff (S count) vs'
    else check_simplex_loop c cutoff check_cutoff count vs'
  end.
Definition check_simplex (c : container) (cutoff : Qc) (check_cutoff : nat) (simplex : list point) : res bool :=
  check_simplex_loop c cutoff check_cutoff 0 simplex.
