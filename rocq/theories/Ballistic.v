(** Model of nodefinder/identify/_evaluate/_line/_ballistic.py: the loops for any kind of positions
    and directions, then the method with vectors as exact rationals, unit vectors and weights as
    exact reals (FloatLine.v: with doubles). *)
From Verif Require Import Base CoordSys CoordSysR Graph Dimension.
From Coq Require Import Reals.
Open Scope list_scope.

(** the attributes of [_BallisticLineImpl]; sets are duplicate-free lists *)
Record bstate (A : Type) := mk_bstate { b_result : graph A unit; b_evaluated : list A }.
Arguments mk_bstate {A}. Arguments b_result {A}. Arguments b_evaluated {A}.

Section Loop.
  (** [order] enumerates sets ([set.pop] takes the first element); [next] is [get_next_pos]
      (_ballistic.py:128-197); [back] is the direction at an end of the line, away from its
      neighbour (lines 69-73) *)
  Context {A W V : Type} `{EqDec A}.
  Variables (order : list A -> list A) (g : graph A W) (next : graph A unit -> A -> option V -> res (option (A * V))) (back : A -> A -> res V).


  (** _ballistic.py:102-126: the loop of [find_loop] *)
  Fixpoint follow (fuel : nat) (s : bstate A) (node : A) (dir : option V) (on_graph : bool) : res (bstate A) :=
    match fuel with
    | O => Err OutOfFuel
    | S fuel' =>
      let! next := next (b_result s) node dir in
      match next with
      | None =>
        let s' := mk_bstate (b_result s) (set_add node (b_evaluated s)) in
        match dir with None => Err AssertionError | Some _ => Ok s' end
      | Some (new_node, new_dir) =>
        let on_result := mem new_node (g_nodes (b_result s)) in
        if on_result && on_graph then Ok s
        else follow fuel' (mk_bstate (add_edge (b_result s) node new_node tt) (b_evaluated s)) new_node (Some new_dir) on_result
      end
    end.
  (** _ballistic.py:88-126 [find_loop]; every second step adds a node, so this [fuel]
      suffices *)
  Definition find_loop (s : bstate A) (node : A) (dir : option V) : res (bstate A) :=
    follow (2 * length (g_nodes g) + 2) (mk_bstate (add_node (b_result s) node) (b_evaluated s)) node dir false.

  (** _ballistic.py:61-66 [new_end_nodes] *)
  Definition new_end_nodes (s : bstate A) : list A :=
    filter (fun x => (degree (b_result s) x =? 1)%nat && negb (mem x (b_evaluated s))) (g_nodes (b_result s)).
  (** _ballistic.py:80-84 [candidate_nodes]: nodes of no edge at a node of the result *)
  Definition candidate_nodes (s : bstate A) : list A :=
    let near := flat_map (fun e => if mem (end1 e) (g_nodes (b_result s)) || mem (end2 e) (g_nodes (b_result s)) then [end1 e; end2 e] else []) (g_edges g) in
    filter (fun x => negb (mem x near)) (g_nodes g).

  (** _ballistic.py:59-86: one turn of the loop of [run] *)
  Definition run_turn (s : bstate A) : res (bstate A) :=
    match order (new_end_nodes s) with
    | node :: _ =>
      match neighbors (b_result s) node with
      | [] => Err (UserExn 0) (* StopIteration; the node has degree 1 *)
      | nbr :: _ =>
        let! dir := back node nbr in
        let! s' := find_loop s node (Some dir) in
        Ok (mk_bstate (b_result s') (set_add node (b_evaluated s')))
      end
    | [] =>
      match order (candidate_nodes s) with
      | [] => Err KeyError (* pop from an empty set *)
      | node :: _ => find_loop s node None
      end
    end.
  Fixpoint run_loop (fuel : nat) (s : bstate A) : res (bstate A) :=
    if is_dominating_set g (g_nodes (b_result s)) then Ok s
    else match fuel with
    | O => Err OutOfFuel
    | S fuel' => let! s' := run_turn s in run_loop fuel' s'
    end.
  (** _ballistic.py:28-38 [_evaluate_line_ballistic], 52-86 [run]; each turn adds a node to
      the result or to the evaluated nodes, so this [fuel] suffices *)
  Definition evaluate_line_ballistic_with : res (graph A unit) :=
    let! s := run_loop (2 * length (g_nodes g) + 1) (mk_bstate empty_graph []) in
    Ok (b_result s).
End Loop.

Definition rvec := list R.

(** _ballistic.py:138,147: [la.norm(delta)], [delta / delta_norm] *)
Definition vec_norm (v : point) : R := sqrt (Qc2R (dot v v)).
Definition unit_vec (v : point) : rvec := map (fun c => (Qc2R c / vec_norm v)%R) v.

Section Ballistic.
  Variables (order : list point -> list point) (cs : coordsys) (fs : R) (g : graph point R).

  (** _ballistic.py:140-148: the neighbours at non-zero distance with their unit vectors *)
  Fixpoint directions (nbrs deltas : list point) : list (point * rvec) :=
    match nbrs, deltas with
    | q :: nbrs', v :: deltas' => if ltb 0 (dot v v) then (q, unit_vec v) :: directions nbrs' deltas' else directions nbrs' deltas'
    | _, _ => []
    end.

  (** _ballistic.py:150-157: the candidates with the cosine of the angle *)
  Definition candidates (dir : option rvec) (us : list (point * rvec)) : list (point * rvec * R) :=
    filter (fun c => rgt (snd c) 0)
      (map (fun qu => (qu, match dir with Some d => rdot (snd qu) d | None => 1%R end)) us).

  (** [x.astype(int)] *)
  Definition b2r (b : bool) : R := if b then 1%R else 0%R.
  (** _ballistic.py:162-192: the weight of a candidate *)
  Definition weight (result : graph point unit) (node : point) (cands : list (point * rvec * R)) (c : point * rvec * R) : R :=
    let '(q, u, angle) := c in
    let w := rsum (map (fun c' => Rmax (rdot u (snd (fst c'))) 0) cands) in
    let w := (w * angle)%R in
    let w := (w * (1 + 1 / 5 * b2r (mem q (g_nodes result))))%R in
    let w := (w * (1 + b2r (2 <? degree result q)%nat))%R in
    let w := (w * (1 + b2r (degree result q =? 1)%nat))%R in
    let d := (match edge_attr g node q with Some d => d | None => 0%R end / fs)%R in
    let w := (w / (1 + 5 * d))%R in
    (w * (1 - b2r (rgt (1 / 1000) d)))%R.
  (** [np.argmax]: the first element with the largest weight *)
  Fixpoint argmax {A} (f : A -> R) (l : list A) : option A :=
    match l with
    | [] => None
    | a :: l' => match argmax f l' with
                 | None => Some a
                 | Some b => if rgt (f b) (f a) then Some b else Some a
                 end
    end.

  (** _ballistic.py:128-197 [get_next_pos].  With no neighbours NumPy cannot broadcast
      (ValueError; a TypeError follows instead in one dimension); with no neighbour at
      non-zero distance the product in line 151 fails. *)
  Definition get_next_pos (result : graph point unit) (node : point) (dir : option rvec) : res (option (point * rvec)) :=
    let nbrs := neighbors g node in
    match nbrs with
    | [] => Err (if Nat.eqb (length node) 1 then TypeError else ValueError)
    | _ =>
      let! deltas := sequence (map (connecting_vector cs node) nbrs) in
      let us := directions nbrs deltas in
      match us, dir with
      | [], Some _ => Err ValueError
      | _, _ =>
        let cands := candidates dir us in
        match argmax (weight result node cands) cands with
        | None => Ok None
        | Some (q, u, _) => Ok (Some (q, u))
        end
      end
    end.

  (** _ballistic.py:69-73 *)
  Definition away (node nbr : point) : res rvec :=
    let! delta := connecting_vector cs node nbr in
    Ok (map Ropp (unit_vec delta)).
  (** _ballistic.py:28-38 [_evaluate_line_ballistic] *)
  Definition evaluate_line_ballistic : res (graph point unit) := evaluate_line_ballistic_with order g get_next_pos away.
End Ballistic.
