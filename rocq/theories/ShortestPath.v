(** Model of nodefinder/identify/_evaluate/_line/_shortest_path.py, for any kind of positions and
    of weights.  [evaluate_line_shortest_path] at the end is the method with exact reals as
    weights (FloatLine.v: with doubles). *)
From Verif Require Import Base CoordSys CoordSysR Graph Paths.
From Coq Require Import Reals.
Open Scope list_scope.

(** What is calculated with weights: the weight of a distance (_shortest_path.py:26-33), the
    products with 0.5, 0.1 and 10 (lines 137, 152, 154), and the weight 0 (lines 109-110) *)
Record weight_ops (W : Type) := mk_weight_ops { wo_init : W -> W; wo_half : W -> W; wo_tenth : W -> W; wo_ten : W -> W; wo_zero : W }.
Arguments wo_init {W}. Arguments wo_half {W}. Arguments wo_tenth {W}. Arguments wo_ten {W}. Arguments wo_zero {W}.

(** the variables of [_evaluate_line_shortest_path]; sets are duplicate-free lists *)
Record pstate (A W : Type) := mk_pstate {
  p_work : graph A W;
  p_result : graph A unit;
  p_cand : list A;
  p_high : list A;
  p_one : list A
}.
Arguments mk_pstate {A W}. Arguments p_work {A W}. Arguments p_result {A W}. Arguments p_cand {A W}. Arguments p_high {A W}. Arguments p_one {A W}.

(** [set(graph.neighbors(u)) | {u}] *)
Definition closed_nbhd {A W} `{EqDec A} (g : graph A W) (u : A) : list A := u :: neighbors g u.
(** _shortest_path.py:106-107 [result_graph.add_edges_from(edges)] *)
Definition add_path {A} `{EqDec A} (path : list A) (g : graph A unit) : graph A unit :=
  fold_left (fun g e => add_edge g (fst e) (snd e) tt) (path_edges path) g.
(** _shortest_path.py:159-161 [_update_neighbour_weights] *)
Definition update_neighbour_weights {A W} `{EqDec A} (node : A) (multiply : W -> W) (g : graph A W) : graph A W :=
  fold_left (fun g nbr => update_attr multiply node nbr g) (neighbors g node) g.

Section ShortestPath.
  (** [order] enumerates sets ([set.pop] takes the first element); [spath] is
      [nx.shortest_path] with weights *)
  Context {A W : Type} `{EqDec A}.
  Variables (order : list A -> list A) (spath : graph A W -> A -> A -> option (list A)) (ops : weight_ops W).

  (** _shortest_path.py:26-33: the weights; [work_graph] keeps only the weight, the
      distance is not used after this *)
  Definition init_weights (g : graph A W) : graph A W := map_attr (wo_init ops) g.

  (** _shortest_path.py:129-137 [_update_high_degree_nodes] *)
  Definition update_high_degree_nodes (s : pstate A W) : pstate A W :=
    let new := filter (fun x => (2 <? degree (p_result s) x)%nat && negb (mem x (p_high s))) (g_nodes (p_result s)) in
    mk_pstate (fold_left (fun g x => update_neighbour_weights x (wo_half ops) g) new (p_work s)) (p_result s) (p_cand s) (p_high s ++ new) (p_one s).
  (** _shortest_path.py:140-156 [_update_degree_one_nodes] *)
  Definition update_degree_one_nodes (s : pstate A W) : pstate A W :=
    let current := filter (fun x => (degree (p_result s) x =? 1)%nat) (g_nodes (p_result s)) in
    let new := filter (fun x => negb (mem x (p_one s))) current in
    let outdated := filter (fun x => negb (mem x current)) (p_one s) in
    let w := fold_left (fun g x => update_neighbour_weights x (wo_tenth ops) g) (order new) (p_work s) in
    let w := fold_left (fun g x => update_neighbour_weights x (wo_ten ops) g) (order outdated) w in
    mk_pstate w (p_result s) (p_cand s) (p_high s) current.

  (** _shortest_path.py:108-110: the edges of a path get weight 0 *)
  Definition zero_path (path : list A) (g : graph A W) : graph A W :=
    fold_left (fun g e => update_attr (fun _ => wo_zero ops) (fst e) (snd e) g) (path_edges path) g.
  (** _shortest_path.py:82-112: the loop over [num_paths]; [left] = paths still allowed *)
  Fixpoint find_paths (left num_paths : nat) (single_path_only : bool) (start end_ : A) (start_end_nbs : list A)
      (tmp : graph A W) (s : pstate A W) : res (pstate A W) :=
    match left with
    | O => Ok s
    | S left' =>
      if single_path_only && (num_paths =? 1)%nat then Ok s
      else match spath tmp start end_ with
      | None => Ok s
      | Some path =>
        let new_neighbours := flat_map (closed_nbhd tmp) path in
        let cand := filter (fun x => negb (mem x new_neighbours)) (p_cand s) in
        let nodes_to_remove := filter (fun x => negb (mem x start_end_nbs)) new_neighbours in
        match nodes_to_remove, single_path_only with
        | [], false => Err AssertionError
        | _, _ =>
          let s' := mk_pstate (zero_path path (p_work s)) (add_path path (p_result s)) cand (p_high s) (p_one s) in
          find_paths left' (S num_paths) single_path_only start end_ start_end_nbs (remove_nodes (zero_path path tmp) nodes_to_remove) s'
        end
      end
    end.
  Definition max_num_paths : nat := 20.

  (** _shortest_path.py:54-112: one start position *)
  Definition connect_one (end_ : A) (s : pstate A W) (start : A) : res (pstate A W) :=
    let s := update_degree_one_nodes (update_high_degree_nodes s) in
    let tmp := p_work s in
    match hops tmp start end_ with
    | None => Err NetworkXNoPath
    | Some n =>
      find_paths max_num_paths 0 (n <=? 4)%nat start end_ (closed_nbhd tmp start ++ closed_nbhd tmp end_) tmp s
    end.
  Fixpoint connect_all (end_ : A) (s : pstate A W) (starts : list A) : res (pstate A W) :=
    match starts with
    | [] => Ok s
    | st :: rest => let! s' := connect_one end_ s st in connect_all end_ s' rest
    end.

  (** _shortest_path.py:48-124: the outer loop; every turn removes a candidate, so
      [fuel] = number of candidates suffices *)
  Fixpoint path_loop (fuel : nat) (starts : list A) (s : pstate A W) : res (graph A unit) :=
    match order (p_cand s) with
    | [] => Ok (p_result s)
    | end_ :: _ =>
      match fuel with
      | O => Err OutOfFuel
      | S fuel' =>
        let cand := filter (fun x => negb (mem x (closed_nbhd (p_work s) end_))) (p_cand s) in
        let! s' := connect_all end_ (mk_pstate (p_work s) (p_result s) cand (p_high s) (p_one s)) (order starts) in
        path_loop fuel' (set_add end_ starts) s'
      end
    end.
  (** _shortest_path.py:17-126 [_evaluate_line_shortest_path] *)
  Definition evaluate_line_shortest_path_with (g : graph A W) : res (graph A unit) :=
    let work := init_weights g in
    match order (g_nodes work) with
    | [] => Err KeyError
    | first :: _ =>
      let cand := filter (fun x => negb (mem x (closed_nbhd work first))) (g_nodes work) in
      path_loop (length (g_nodes g)) [first] (mk_pstate work (add_node empty_graph first) cand [] [])
    end.
End ShortestPath.

(** _shortest_path.py:26-33, 137, 152, 154 with exact reals *)
Definition distance_func (x : R) : R := (x + x * x)%R.
Definition real_ops (fs : R) : weight_ops R :=
  mk_weight_ops R (fun dist => fs * distance_func (dist / fs))%R (fun w => w * (1 / 2))%R (fun w => w * (1 / 10))%R (fun w => w * 10)%R 0%R.
Definition evaluate_line_shortest_path (order : list point -> list point) (spath : graph point R -> point -> point -> option (list point)) (fs : R) : graph point R -> res (graph point unit) :=
  evaluate_line_shortest_path_with order spath (real_ops fs).
