(** Model, in IEEE double precision, of nodefinder/identify/_evaluate/_line/_ballistic.py and
    _shortest_path.py (the loops are those of Ballistic.v and ShortestPath.v, where the
    calculations are exact). *)
From Coq Require Import ZArith List.
From Flocq Require Import Core BinarySingleNaN.
From Verif Require Import Base CoordSys Graph Paths Ballistic ShortestPath Float FloatVector FloatMin FloatCell FloatController FloatCluster FloatIdentify.
Import ListNotations.
Open Scope list_scope.

(** What the code calls without determining the result: the iteration order of sets;
    [nx.shortest_path] with weights ([None] for NetworkXNoPath); [x ** 2]; [scipy.linalg.norm] of one vector
    (LAPACK); the numbers in the products [m @ v] and [m @ m.T] of a matrix (BLAS); the sum
    of a row. *)
Record line_env := mk_line_env {
  le_order : list fpoint -> list fpoint;
  le_spath : graph fpoint double -> fpoint -> fpoint -> option (list fpoint);
  le_pow : double -> nat -> double;
  le_norm : fpoint -> double;
  le_product : list fpoint -> fpoint -> nat -> double;
  le_gram : list fpoint -> nat -> nat -> double;
  le_sum : list double -> double
}.

(** the literals 0.1, 0.2 and 1e-3 *)
Definition dtenth : double := of_dyadic 3602879701896397 (-55).
Definition dfifth : double := of_dyadic 3602879701896397 (-54).
Definition dthousandth : double := of_dyadic 1152921504606847 (-60).
Definition fzero : double := B754_zero false.
(** [x.astype(int)] *)
Definition b2z (b : bool) : Z := if b then 1%Z else 0%Z.
(** [np.maximum(x, 0)]: NaN stays NaN *)
Definition fmax0 (x : double) : double := if is_nan x then x else if flt x fzero then fzero else x.
(** [np.argmax]: the first NaN, or else the first of the largest numbers *)
Definition better (a b : double) : bool := negb (is_nan a) && (is_nan b || flt a b).
Fixpoint fargmax_from {A} (best : A) (w : double) (l : list (A * double)) : A :=
  match l with
  | [] => best
  | (a, x) :: l' => if better w x then fargmax_from a x l' else fargmax_from best w l'
  end.
Definition fargmax {A} (l : list (A * double)) : option A :=
  match l with [] => None | (a, x) :: l' => Some (fargmax_from a x l') end.
(** [numpy.asarray_chkfinite], which scipy applies to the arguments of [norm] *)
Definition chkfinite (v : fpoint) : bool := forallb (fun x : double => is_finite x) v.

Section Line.
  Variables (le : line_env) (per : bool) (boxes : list fbox) (fs : double) (g : graph fpoint double).

  (** _ballistic.py:140-148: the neighbours at non-zero distance with their unit vectors *)
  Fixpoint fdirections (nbrs deltas : list fpoint) : list (fpoint * fpoint) :=
    match nbrs, deltas with
    | q :: nbrs', v :: deltas' =>
      let n := fnorm v in
      if flt fzero n then (q, map (fun c => fdiv c n) v) :: fdirections nbrs' deltas' else fdirections nbrs' deltas'
    | _, _ => []
    end.
  (** _ballistic.py:150-157: the candidates with the cosine of the angle *)
  Definition fcandidates (dir : option fpoint) (us : list (fpoint * fpoint)) : list (fpoint * fpoint * double) :=
    filter (fun c => flt fzero (snd c))
      (map (fun iqu => (snd iqu, match dir with Some d => le_product le (map snd us) d (fst iqu) | None => fone end)) (combine (seq 0 (length us)) us)).
  (** _ballistic.py:162-192: the weight of the [i]th candidate *)
  Definition fweight (result : graph fpoint unit) (node : fpoint) (cands : list (fpoint * fpoint * double)) (i : nat) (c : fpoint * fpoint * double) : double :=
    let '(q, u, angle) := c in
    let m := map (fun c' : fpoint * fpoint * double => snd (fst c')) cands in
    let w := le_sum le (map (fun j => fmax0 (le_gram le m i j)) (seq 0 (length m))) in
    let w := fmul w angle in
    let w := fmul w (fadd fone (fmul dfifth (of_int (b2z (mem q (g_nodes result)))))) in
    let w := fmul w (of_int (1 + b2z (2 <? degree result q)%nat)) in
    let w := fmul w (of_int (1 + b2z (degree result q =? 1)%nat)) in
    let d := fdiv (match edge_attr g node q with Some d => d | None => fzero end) fs in
    let w := fdiv w (fadd fone (fmul (of_int 5) d)) in
    fmul w (of_int (1 - b2z (flt d dthousandth))).
  (** _ballistic.py:128-197 [get_next_pos].  Errors as in Ballistic.v; and scipy raises
      ValueError for vectors that are not finite. *)
  Definition fget_next_pos (result : graph fpoint unit) (node : fpoint) (dir : option fpoint) : res (option (fpoint * fpoint)) :=
    let nbrs := neighbors g node in
    match nbrs with
    | [] => Err (if Nat.eqb (length node) 1 then TypeError else ValueError)
    | _ =>
      let! deltas := sequence (map (fvector per boxes node) nbrs) in
      if negb (forallb chkfinite deltas) then Err ValueError
      else
        let us := fdirections nbrs deltas in
        match us, dir with
        | [], Some _ => Err ValueError
        | _, _ =>
          let cands := fcandidates dir us in
          match fargmax (map (fun ic => (snd ic, fweight result node cands (fst ic) (snd ic))) (combine (seq 0 (length cands)) cands)) with
          | None => Ok None
          | Some (q, u, _) => Ok (Some (q, u))
          end
        end
    end.
  (** _ballistic.py:69-73 *)
  Definition faway (node nbr : fpoint) : res fpoint :=
    let! delta := fvector per boxes node nbr in
    if chkfinite delta then let n := le_norm le delta in Ok (map (fun c => fopp (fdiv c n)) delta) else Err ValueError.
  (** _ballistic.py:28-38 [_evaluate_line_ballistic] *)
  Definition fevaluate_line_ballistic : res (graph fpoint unit) := evaluate_line_ballistic_with (le_order le) g fget_next_pos faway.

  (** _shortest_path.py:26-33, 137, 152, 154, 109-110 *)
  Definition fdistance_func (x : double) : double := fadd x (le_pow le x 2).
  Definition float_ops : weight_ops double :=
    mk_weight_ops double (fun dist => fmul fs (fdistance_func (fdiv dist fs))) (fun w => fmul w dhalf) (fun w => fmul w dtenth) (fun w => fmul w (of_int 10)) fzero.
  (** _shortest_path.py:17-126 [_evaluate_line_shortest_path] *)
  Definition fevaluate_line_shortest_path : res (graph fpoint unit) := evaluate_line_shortest_path_with (le_order le) (le_spath le) float_ops g.
End Line.

(** _line/_run.py: the line evaluation in the identification (the result of the other methods
    stays arbitrary) *)
Inductive fmethod := FBallistic | FShortestPath.
Definition fevaluate_line (le : line_env) (per : bool) (boxes : list fbox) (fs : double) (m : fmethod) (g : graph fpoint double) : res (graph fpoint unit) :=
  match m with
  | FBallistic => fevaluate_line_ballistic le per boxes fs g
  | FShortestPath => fevaluate_line_shortest_path le fs g
  end.
Definition with_line (env : fenvironment) (line : graph fpoint double -> res (graph fpoint unit)) : fenvironment :=
  mk_fenv (fe_order env) (fe_edges env) (fe_shuffle env) (fe_tuples env) (fe_sum env) (fe_column_sum env) (fe_svd env) (fe_pow env) line.
