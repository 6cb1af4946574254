(** Model of the HDF5 serialization of the identification results:
    nodefinder/identify/result/_containers.py and _shapes.py.  The handling of numbers,
    [None], lists and dictionaries is that of the package fsc.hdf5-io (not part of /repo;
    modelled from its documented behaviour, as in Hdf5.v). *)
From Coq Require Import String.
From Verif Require Import Base CoordSys Values Hdf5 Graph Dimension Shape Identify.
Open Scope string_scope.
Open Scope list_scope.

(** fsc.hdf5-io: [to_hdf5] / [from_hdf5] of numbers: a group with the member 'value' *)
Definition enc_int_obj (n : nat) : tree := TGroup "builtins.number" [(KName "value", enc_nat n)].
Definition enc_num_obj (q : Qc) : tree := TGroup "builtins.number" [(KName "value", TNum q)].
Definition dec_obj {A} (dec : tree -> res A) (t : tree) : res A :=
  let! g := tag_of t in
  if String.eqb g "builtins.number" then let! v := field "value" t in dec v else Err KeyError.
(** fsc.hdf5-io: [None] is an empty group; [int] or [None] *)
Definition enc_none : tree := TGroup "builtins.none" [].
Definition enc_opt_int (d : option nat) : tree := match d with Some n => enc_int_obj n | None => enc_none end.
Definition dec_opt_int (t : tree) : res (option nat) :=
  let! g := tag_of t in
  if String.eqb g "builtins.none" then Ok None
  else let! n := dec_obj dec_nat t in Ok (Some n).
(** fsc.hdf5-io: dictionaries (and [Counter]s): the list of items, each a list of two *)
Definition enc_item (kn : nat * nat) : tree := enc_list enc_int_obj [fst kn; snd kn].
Definition dec_item (t : tree) : res (nat * nat) :=
  let! l := dec_list (dec_obj dec_nat) t in match l with [k; n] => Ok (k, n) | _ => Err ValueError end.
Definition enc_counter (c : counter) : tree := TGroup "builtins.dict" [(KName "items", enc_list enc_item c)].
Definition dec_counter (t : tree) : res counter := let! i := field "items" t in dec_list dec_item i.

(** arrays of positions, and of pairs of positions; numpy and h5py require all positions
    to have the same length *)
Definition enc_positions : list point -> tree := enc_arr enc_point.
Definition dec_positions : tree -> res (list point) := dec_arr dec_point.
Definition enc_edge (e : point * point) : tree := enc_positions [fst e; snd e].
Definition dec_edge (t : tree) : res (point * point) :=
  let! l := dec_positions t in match l with [a; b] => Ok (a, b) | _ => Err ValueError end.

Section Lines.
  (** [list(graph.edges)]: every edge once, as a pair of nodes in either order *)
  Variable elist : graph point unit -> list (point * point).

  (** _shapes.py:56-66 [NodalLine.to_hdf5]; 17-32 [NodalPoint] ([HDF5_ATTRIBUTES = ['position']]);
      [subscribe_hdf5] adds the type tag *)
  Definition enc_line (g : graph point unit) (dc : counter) : tree :=
    TGroup "nodefinder.nodal_line"
      [ (KName "graph", TGroup ""
          ((KName "nodes", enc_positions (g_nodes g)) ::
           match g_edges g with [] => [] | _ => [(KName "edges", enc_arr enc_edge (elist g))] end));
        (KName "degree_count", enc_counter dc) ].
  Definition enc_point_shape (p : point) : tree := TGroup "nodefinder.nodal_point" [(KName "position", enc_point p)].
  Definition enc_shape (s : option shape) : tree :=
    match s with
    | None => enc_none
    | Some (NodalPoint p) => enc_point_shape p
    | Some (NodalLine g dc) => enc_line g dc
    end.

  (** _containers.py:76-79 [IdentificationResult.to_hdf5] *)
  Definition enc_ident (r : ident_result) : tree :=
    TGroup "nodefinder.identification_result"
      [ (KName "dimension", enc_opt_int (i_dimension r));
        (KName "positions", enc_positions (i_positions r));
        (KName "shape", enc_shape (i_shape r)) ].
  (** _containers.py:30 [HDF5_ATTRIBUTES = ['coordinate_system', 'results', 'feature_size']] *)
  Definition enc_identc (c : ident_container) : tree :=
    TGroup "nodefinder.identification_result_container"
      [ (KName "coordinate_system", enc_cs (ic_cs c));
        (KName "results", enc_list enc_ident (ic_results c));
        (KName "feature_size", TNum (ic_feature_size c)) ].
End Lines.

(** _shapes.py:68-82 [NodalLine.from_hdf5] *)
Definition dec_graph (t : tree) : res (graph point unit) :=
  let! ns := field "nodes" t in let! ns := dec_positions ns in
  let g := fold_left (fun g p => add_node g p) ns empty_graph in
  if has_field "edges" t then
    let! es := field "edges" t in let! es := dec_arr dec_edge es in
    Ok (fold_left (fun g e => add_edge g (fst e) (snd e) tt) es g)
  else Ok g.
Definition dec_line (t : tree) : res shape :=
  let! g := field "graph" t in let! g := dec_graph g in
  let! dc := field "degree_count" t in let! dc := dec_counter dc in
  Ok (NodalLine g dc).
(** [from_hdf5] of the shape: dispatches on the type tag *)
Definition dec_shape (t : tree) : res (option shape) :=
  let! g := tag_of t in
  if String.eqb g "builtins.none" then Ok None
  else if String.eqb g "nodefinder.nodal_point" then
    let! p := field "position" t in let! p := dec_point p in Ok (Some (NodalPoint p))
  else if String.eqb g "nodefinder.nodal_line" then let! s := dec_line t in Ok (Some s)
  else Err KeyError.

Section Loading.
  (** the exception h5py raises for [group[()]]: AttributeError before version 3, TypeError since *)
  Variable group_item_exn : exn.

  (** [hdf5_handle[key][()]] *)
  Definition contents (t : tree) : res tree := match t with TGroup _ _ => Err group_item_exn | _ => Ok t end.
  (** _containers.py:84-87, 88-91: a dataset, or if that fails with AttributeError an object *)
  Definition dataset_or {A} (dec : tree -> res A) (dec_group : tree -> res A) (t : tree) : res A :=
    match contents t with
    | Ok d => dec d
    | Err AttributeError => dec_group t
    | Err e => Err e
    end.
  Definition dec_dimension : tree -> res (option nat) := dataset_or (fun d => let! n := dec_nat d in Ok (Some n)) dec_opt_int.
  (** the older format: a list of lists of numbers *)
  Definition dec_result_positions : tree -> res (list point) := dataset_or dec_positions (dec_list (dec_list (dec_obj dec_num))).
  (** _containers.py:81-92 [IdentificationResult.from_hdf5] *)
  Definition dec_ident (t : tree) : res ident_result :=
    let! s := field "shape" t in let! s := dec_shape s in
    let! d := field "dimension" t in let! d := dec_dimension d in
    let! p := field "positions" t in let! p := dec_result_positions p in
    Ok (mk_ident p d s).
  Definition dec_identc (t : tree) : res ident_container :=
    let! cs := field "coordinate_system" t in let! cs := dec_cs cs in
    let! rs := field "results" t in let! rs := dec_list dec_ident rs in
    let! f := field "feature_size" t in let! f := dec_num f in
    Ok (mk_identc cs f rs).
End Loading.
