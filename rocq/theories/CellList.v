(** Model of nodefinder/search/result/_cell_list.py. *)
From Verif Require Import Base CoordSys.
Open Scope Qc_scope.

Notation index := (list Z).

(** _cell_list.py:21-36.  The NumPy object array [_cells] is the list of its
    entries, each with its multi-index; [_neighbour_indices] only memoizes
    [_calculate_neighbour_indices] and is left out. *)
Record cell_list (V : Type) := mk_cl {
  cl_periodic : bool;
  cl_num : list Z;              (* num_cells *)
  cl_cells : list (index * list V);
  cl_flat : list V              (* _values_flat *)
}.
Arguments mk_cl {V}.
Arguments cl_periodic {V}.
Arguments cl_num {V}.
Arguments cl_cells {V}.
Arguments cl_flat {V}.

(** [range(n)] *)
Definition zrange (n : Z) : list Z := map Z.of_nat (seq 0 (Z.to_nat n)).

(** _cell_list.py:24-26 *)
Definition total_of (per : bool) (num : list Z) : list Z :=
  if per then num else map (fun n => (n + 2)%Z) num.
Definition cl_total {V} (c : cell_list V) : list Z := total_of (cl_periodic c) (cl_num c).

(** _cell_list.py:21-36 [__init__] *)
Definition cl_new (V : Type) (num : list Z) (per : bool) : res (cell_list V) :=
  if forallb (fun n => (0 <? n)%Z) num
  then Ok {| cl_periodic := per; cl_num := num;
             cl_cells := map (fun i => (i, [])) (product (map zrange (total_of per num)));
             cl_flat := [] |}
  else Err AssertionError.

(** _cell_list.py:33-35 *)
Definition neighbour_offsets (n : nat) : list index := product (repeat [(-1)%Z; 0%Z; 1%Z] n).

Definition idx_add : index -> index -> index := map2 Z.add.

(** _cell_list.py:49-57 [_calculate_neighbour_indices] *)
Definition calculate_neighbour_indices {V} (c : cell_list V) (idx : index) : list index :=
  let indices := map (idx_add idx) (neighbour_offsets (length (cl_num c))) in
  if cl_periodic c then map (fun i => map2 Z.modulo i (cl_total c)) indices
  else filter (fun i => forallb (fun x => (0 <=? x)%Z) i &&
                        forallb (fun b => b) (map2 Z.ltb i (cl_total c))) indices.

(** _cell_list.py:64-69 [get_index] *)
Definition get_index1 (per : bool) (n : Z) (f : Qc) : Z :=
  let v := qtrunc (f * qc n) in
  if per then v
  else Z.max 0 (Z.min (v + 1) (n + 2 - 1)).
Definition get_index {V} (c : cell_list V) (frac : point) : index :=
  map2 (get_index1 (cl_periodic c)) (cl_num c) frac.

(** NumPy indexing [_cells[idx]] with a tuple of integers: a negative entry
    counts from the end; anything else out of range is an IndexError. *)
Definition np_index1 (total i : Z) : res Z :=
  if ((0 <=? i) && (i <? total))%Z then Ok i
  else if ((- total <=? i) && (i <? 0))%Z then Ok (i + total)%Z
  else Err IndexError.
Definition np_index {V} (c : cell_list V) (idx : index) : res index :=
  sequence (map2 np_index1 (cl_total c) idx).

Fixpoint assoc {V} (i : index) (l : list (index * list V)) : res (list V) :=
  match l with
  | [] => Err IndexError
  | (j, v) :: l' => if eqb i j then Ok v else assoc i l'
  end.
(** [self._cells[idx]] *)
Definition get_cell {V} (c : cell_list V) (idx : index) : res (list V) :=
  let! i := np_index c idx in assoc i (cl_cells c).

(** _cell_list.py:59-62 [add_point] *)
Definition add_point {V} (c : cell_list V) (frac : point) (v : V) : res (cell_list V) :=
  let! i := np_index c (get_index c frac) in
  let! _ := assoc i (cl_cells c) in
  Ok {| cl_periodic := cl_periodic c; cl_num := cl_num c;
        cl_cells := map (fun e => if eqb i (fst e) then (fst e, snd e ++ [v]) else e) (cl_cells c);
        cl_flat := cl_flat c ++ [v] |}.

(** _cell_list.py:83-86 [get_neighbour_values]; the generator is the list of
    values it yields *)
Definition get_neighbour_values {V} (c : cell_list V) (frac : point) : res (list V) :=
  let! cells := sequence (map (get_cell c) (calculate_neighbour_indices c (get_index c frac))) in
  Ok (concat cells).
