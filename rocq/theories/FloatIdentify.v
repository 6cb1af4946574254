(** Model, in IEEE double precision, of nodefinder/identify/_dimension.py, _evaluate/_point.py,
    _evaluate/_run.py, _run.py and of [CoordinateSystem.average] (Dimension.v, Identify.v and CoordSys.v
    are the same in exact arithmetic). *)
From Coq Require Import ZArith List.
From Flocq Require Import Core BinarySingleNaN.
From Verif Require Import Base CoordSys CellList Graph Dimension Float FloatVector FloatMin FloatCell FloatController FloatCluster.
Import ListNotations.
Open Scope list_scope.

Definition ftuple := list fpoint.
Definition fabs : double -> double := Babs.

(** identify/result/_shapes.py *)
Inductive fshape :=
| FNodalPoint (position : fpoint)
| FNodalLine (graph : graph fpoint unit).
(** identify/result/_containers.py:44-69 *)
Record fident := mk_fident { fi_positions : list fpoint; fi_dimension : option nat; fi_shape : option fshape }.

(** What the code calls without determining the result: the iteration order of sets and graphs;
    random.shuffle; the tuples of neighbours the generator _dimension.py:132-161 yields for a position
    and a dimension (it makes no calculations with coordinates, and is modelled in Dimension.v);
    the order in which numpy adds numbers (of a one-dimensional array, and along the first axis);
    [scipy.linalg.svd]; [x ** n]; and the evaluation of lines (_evaluate/_line, exact in Identify.v). *)
Record fenvironment := mk_fenv {
  fe_order : list fpoint -> list fpoint;
  fe_edges : list (fpoint * fpoint * double) -> list (fpoint * fpoint * double);
  fe_shuffle : graph fpoint double -> list fpoint -> list fpoint;
  fe_tuples : graph fpoint double -> fpoint -> nat -> list ftuple;
  fe_sum : list double -> double;
  fe_column_sum : list double -> double;
  fe_svd : list fpoint -> res (list double);
  fe_pow : double -> nat -> double;
  fe_line : graph fpoint double -> res (graph fpoint unit)
}.

(** [np.pi] *)
Definition np_pi : double := of_dyadic 884279719003555 (-48).
(** _dimension.py:19 [EXACT_VALUES] *)
Definition fexact_value (dim : nat) : option double :=
  match dim with
  | 1 => Some dhalf
  | 2 => Some (fdiv (of_int 8) (fmul (of_int 9) np_pi))
  | 3 => Some (fdiv (fmul (of_int 27) np_pi) (of_int 512))
  | _ => None
  end%nat.

Section Identify.
  Variables (env : fenvironment) (per : bool) (boxes : list fbox) (fs : double).

  (** coordinate_system.py:81-92 [connecting_vector] *)
  Definition fvector (p1 p2 : fpoint) : res fpoint :=
    if per then fconnecting_vector boxes p1 p2 else Ok (map2 fsub p2 p1).
  (** [np.average] of a list of numbers *)
  Definition favg (l : list double) : double := fdiv (fe_sum env l) (of_int (Z.of_nat (length l))).
  (** [np.var] *)
  Definition fvar (l : list double) : double :=
    let m := favg l in favg (map (fun x => fmul (fsub x m) (fsub x m)) l).
  (** [np.average(l, axis=0)]: column by column *)
  Definition fcolumn_avg (l : list fpoint) : fpoint :=
    map (fun i => fdiv (fe_column_sum env (map (fun p => nth i p (B754_zero false)) l)) (of_int (Z.of_nat (length l)))) (seq 0 (length boxes)).

  (** coordinate_system.py:94-103 [average]; [positions[0]] fails without positions *)
  Definition faverage (positions : list fpoint) : res fpoint :=
    if per then
      match positions with
      | [] => Err IndexError
      | origin :: _ =>
        let! deltas := sequence (map (fun p => fvector origin p) positions) in
        Ok (map2 (fun b x => np_mod x (fsize (fst b) (snd b))) boxes (map2 fadd origin (fcolumn_avg deltas)))
      end
    else Ok (fcolumn_avg positions).

  (** _dimension.py:180-193 [_get_volume] *)
  Definition fget_volume (pos : fpoint) (t : ftuple) : res double :=
    let! vs := sequence (map (fun nbr => fvector nbr pos) t) in
    let! svd := fe_svd env vs in
    Ok (if (length svd <? length t)%nat then B754_zero false else fabs (fold_left fmul svd fone)).

  (** _dimension.py:163-177: the loop over the tuples; also returns the tuples whose volume was
      calculated.  The average of an empty list is NaN, which is not greater than the limit. *)
  Definition favg_gt (l : list double) (limit : double) : bool :=
    match l with [] => false | _ => flt limit (favg l) end.
  Fixpoint fevaluate_tuples (pos : fpoint) (min_eval : nat) (limit : double) (seen : list ftuple) (results : list double) (ts : list ftuple) : res (bool * list ftuple) :=
    match ts with
    | [] => Ok (favg_gt results limit, seen)
    | t :: ts' =>
      let i := length results in
      if (min_eval <=? i)%nat && (1 <? i)%nat && flt (fsqrt (fdiv (fvar results) (of_int (Z.of_nat (i - 1))))) (fdiv (fabs (fsub limit (favg results))) dtwo)
      then Ok (favg_gt results limit, seen)
      else let! v := fget_volume pos t in
           fevaluate_tuples pos min_eval limit (seen ++ [t]) (results ++ [v]) ts'
    end.
  (** _dimension.py:112-177 [_has_dimension], with the tuples evaluated *)
  Definition fhas_dimension (g : graph fpoint double) (pos : fpoint) (dim : nat) (min_eval : option nat) : res (bool * list ftuple) :=
    if (length pos <? dim)%nat then Ok (false, [])
    else
      let m := match min_eval with None => length (neighbors g pos) | Some m => m end in
      match fexact_value dim with
      | None => Err NotImplementedError
      | Some e => fevaluate_tuples pos m (fdiv (fmul (fe_pow env fs dim) e) dtwo) [] [] (fe_tuples env g pos dim)
      end.
  (** _dimension.py:92-109 [_get_dimension]: [n] more dimensions to try, starting with [dim] *)
  Fixpoint fget_dimension_from (g : graph fpoint double) (pos : fpoint) (min_eval : option nat) (n dim : nat) : res nat :=
    match n with
    | O => Ok (dim - 1)%nat
    | S n' =>
      let! (b, _) := fhas_dimension g pos dim min_eval in
      if b then fget_dimension_from g pos min_eval n' (S dim) else Ok (dim - 1)%nat
    end.
  Definition fget_dimension (g : graph fpoint double) (pos : fpoint) (max_dim : nat) (min_eval : option nat) : res nat :=
    fget_dimension_from g pos min_eval max_dim 1.

  (** _dimension.py:80-89 [_check_count]; [collections.Counter] as in Dimension.v *)
  Definition fcheck_count (c : list (nat * nat)) : res (bool * nat) :=
    match most_common c with
    | None => Err IndexError
    | Some (d, n) => Ok (ftwo_thirds (Z.of_nat n) (Z.of_nat (list_sum (map snd c))), d)
    end.
  (** _dimension.py:57-77: the loop over the positions *)
  Fixpoint fcount_dimensions (local : fpoint -> res nat) (min_pos i : nat) (c : list (nat * nat)) (ps : list fpoint) : res (option nat) :=
    match ps with
    | [] => let! (finished, d) := fcheck_count c in Ok (if finished then Some d else None)
    | p :: ps' =>
      let! (finished, d) := (if (min_pos <=? i)%nat then fcheck_count c else Ok (false, 0%nat)) in
      if finished then Ok (Some d)
      else let! d := local p in fcount_dimensions local min_pos (S i) (counter_add d c) ps'
    end.
  (** _dimension.py:22-77 [calculate_dimension], with the defaults *)
  Definition fcalculate_dimension (g : graph fpoint double) : res (option nat) :=
    fcount_dimensions (fun p => fget_dimension g p 3 (Some 10%nat)) 5 0 [] (fe_shuffle env g (g_nodes g)).

  (** _evaluate/_run.py:20-63 [evaluate_cluster], _point.py:14-18 *)
  Definition fevaluate_cluster (g : graph fpoint double) (dim : option nat) : res (option fshape) :=
    match dim with
    | Some 0%nat => let! a := faverage (g_nodes g) in Ok (Some (FNodalPoint a))
    | Some 1%nat =>
      match fe_line env g with
      | Ok l => Ok (Some (FNodalLine l))
      | Err IndexError | Err ValueError => Ok None
      | Err e => Err e
      end
    | _ => Ok None
    end.
  (** identify/_run.py:74-94: one turn of the loop *)
  Definition fidentify_cluster (g : graph fpoint double) : res fident :=
    let! dim := fcalculate_dimension g in
    let! shape := fevaluate_cluster g dim in
    Ok (mk_fident (g_nodes g) dim shape).
  (** identify/_run.py:47-99 [run_from_positions]: the results *)
  Definition frun_from_positions (positions : list fpoint) : res (list fident) :=
    sequence (map fidentify_cluster (fcreate_clusters (fe_order env) (fe_edges env) per boxes fs positions)).
End Identify.

(** identify/_run.py:21-44 [run] for the container of a search: the default feature size is three
    times the distance cutoff *)
Definition fidentify_run (env : fenvironment) (c : fcontainer) (feature_size : option double) : res (list fident) :=
  let fs := match feature_size with Some fs => fs | None => fmul (fc_cutoff c) dthree end in
  frun_from_positions env (fc_per c) (fc_boxes c) fs (map dr_pos (cl_flat (fc_nodes c))).
