(** Model, in IEEE double precision, of the search result container and its cell list:
    nodefinder/search/result/_search_result_container.py:46-181 and
    nodefinder/search/result/_cell_list.py:64-86 (Container.v and CellList.v are the same in
    exact arithmetic; the cell array and the neighbouring indices, which are computed with
    integers, are taken from CellList.v).  [needs_saving] is left out. *)
From Verif Require Import Base CoordSys CellList.
From Coq Require Import ZArith.
From Flocq Require Import Core BinarySingleNaN.
From Verif Require Import Float FloatVector NelderMead FloatMin.
Open Scope list_scope.

Notation fbox := (double * double)%type.

(** coordinate_system.py:55-62 [get_frac], one coordinate *)
Definition fget_frac1 (per : bool) (b : fbox) (p : double) : double :=
  if per then fget_frac (fst b) (snd b) p else fdiv (fsub p (fst b)) (fsize (fst b) (snd b)).
(** coordinate_system.py:105-113 [normalize_position], one coordinate *)
Definition fnormalize1 (per : bool) (b : fbox) (p : double) : double :=
  if per then fnormalize (fst b) (snd b) p else p.
(** coordinate_system.py:70-79 [distance] *)
Definition fdist (per : bool) (boxes : list fbox) (p1 p2 : fpoint) : double :=
  if per then fdistance boxes p1 p2 else fnorm (map2 fsub p2 p1).

(** _cell_list.py:64-69 [get_index] *)
Definition fget_index1 (per : bool) (n : Z) (f : double) : Z :=
  if per then fcell_index n f else fcell_index_open n f.
Definition fget_index {V} (c : cell_list V) (frac : fpoint) : index :=
  map2 (fget_index1 (cl_periodic c)) (cl_num c) frac.
(** _cell_list.py:59-62 [add_point] *)
Definition fadd_point {V} (c : cell_list V) (frac : fpoint) (v : V) : res (cell_list V) :=
  let! i := np_index c (fget_index c frac) in
  let! _ := assoc i (cl_cells c) in
  Ok {| cl_periodic := cl_periodic c; cl_num := cl_num c;
        cl_cells := map (fun e => if eqb i (fst e) then (fst e, snd e ++ [v]) else e) (cl_cells c);
        cl_flat := cl_flat c ++ [v] |}.
(** _cell_list.py:83-86 [get_neighbour_values] *)
Definition fget_neighbour_values {V} (c : cell_list V) (frac : fpoint) : res (list V) :=
  let! cells := sequence (map (get_cell c) (calculate_neighbour_indices c (fget_index c frac))) in
  Ok (concat cells).

(** _search_result_container.py:46-83 *)
Record fcontainer := mk_fcontainer {
  fc_per : bool;
  fc_boxes : list fbox;
  fc_gap : double;
  fc_cutoff : double;
  fc_nodes : cell_list dmin_result;
  fc_rejected : list dmin_result;
  fc_refined : cell_list fpoint
}.
(** _search_result_container.py:59-71: number of cells in one dimension *)
Definition fnum_cells1 (cutoff : double) (b : fbox) : Z :=
  if Beqb cutoff (B754_zero false) then 100
  else Z.min 100 (Z.max 1 (to_int (fdiv (fsize (fst b) (snd b)) cutoff))).
Definition fset_pos (r : dmin_result) (p : fpoint) : dmin_result :=
  {| dr_pos := p; dr_value := dr_value r; dr_success := dr_success r; dr_status := dr_status r; dr_num_fev := dr_num_fev r;
     dr_num_iter := dr_num_iter r; dr_simplex_history := dr_simplex_history r; dr_fun_history := dr_fun_history r |}.
(** _search_result_container.py:90-106 [add_result]; [res.value > gap_threshold] is false for NaN *)
Definition fadd_result (c : fcontainer) (r : dmin_result) : res (fcontainer * bool) :=
  let r := fset_pos r (map2 (fnormalize1 (fc_per c)) (fc_boxes c) (dr_pos r)) in
  if negb (dr_success r) || flt (fc_gap c) (dr_value r)
  then Ok (mk_fcontainer (fc_per c) (fc_boxes c) (fc_gap c) (fc_cutoff c) (fc_nodes c) (fc_rejected c ++ [r]) (fc_refined c), false)
  else
    let! n := fadd_point (fc_nodes c) (map2 (fget_frac1 (fc_per c)) (fc_boxes c) (dr_pos r)) r in
    Ok (mk_fcontainer (fc_per c) (fc_boxes c) (fc_gap c) (fc_cutoff c) n (fc_rejected c) (fc_refined c), true).
(** _search_result_container.py:108-120 [set_refined] *)
Definition fset_refined (c : fcontainer) (p : fpoint) : res fcontainer :=
  let! r := fadd_point (fc_refined c) (map2 (fget_frac1 (fc_per c)) (fc_boxes c) p) p in
  Ok (mk_fcontainer (fc_per c) (fc_boxes c) (fc_gap c) (fc_cutoff c) (fc_nodes c) (fc_rejected c) r).
Fixpoint fadd_results (c : fcontainer) (rs : list dmin_result) : res fcontainer :=
  match rs with
  | [] => Ok c
  | r :: rs' => let! cb := fadd_result c r in fadd_results (fst cb) rs'
  end.
Fixpoint fset_refineds (c : fcontainer) (ps : list fpoint) : res fcontainer :=
  match ps with
  | [] => Ok c
  | p :: ps' => let! c' := fset_refined c p in fset_refineds c' ps'
  end.
(** _search_result_container.py:46-83 [__init__]; [boxes] are the sorted limits *)
Definition fcontainer_new (per : bool) (boxes : list fbox) (gap cutoff : double) (results : list dmin_result) (refined : list fpoint) : res fcontainer :=
  let num := map (fnum_cells1 cutoff) boxes in
  let! nodes := cl_new dmin_result num per in
  let! refd := cl_new fpoint num per in
  let! c := fadd_results (mk_fcontainer per boxes gap cutoff nodes [] refd) results in
  fset_refineds c refined.

(** [np.any(c.pos != pos)] *)
Definition fpos_neq (p q : fpoint) : bool := existsb (fun x => x) (map2 (fun x y => negb (Beqb x y)) p q).
(** _search_result_container.py:130-134 [_get_neighbour_iterator] *)
Definition fget_neighbours (c : fcontainer) (q : fpoint) : res (list dmin_result) :=
  let! cand := fget_neighbour_values (fc_nodes c) (map2 (fget_frac1 (fc_per c)) (fc_boxes c) q) in
  Ok (filter (fun r => fpos_neq (dr_pos r) q) cand).
(** _search_result_container.py:136-149 [get_neighbour_distance_iterator] and 166-181
    [get_all_neighbour_distances]: the same distances in the same order *)
Definition fneighbour_distances (c : fcontainer) (q : fpoint) : res (list double) :=
  let! ns := fget_neighbours c q in
  Ok (map (fun r => fdist (fc_per c) (fc_boxes c) q (dr_pos r)) ns).
(** _search_result_container.py:151-164 [get_refined_neighbour_distance_iterator] *)
Definition frefined_distances (c : fcontainer) (q : fpoint) : res (list double) :=
  let! ps := fget_neighbour_values (fc_refined c) (map2 (fget_frac1 (fc_per c)) (fc_boxes c) q) in
  Ok (map (fun p => fdist (fc_per c) (fc_boxes c) q p) ps).
