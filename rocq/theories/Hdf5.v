(** Model of the HDF5 serialization of the search results: the [to_hdf5] /
    [from_hdf5] methods in /repo and the attribute lists [HDF5_ATTRIBUTES] /
    [HDF5_OPTIONAL] read by [SimpleHDF5Mapping] (package fsc.hdf5-io, not part
    of /repo; its mapping and list handling is modelled here from its
    documented behaviour).

    A file is a tree of groups and datasets.  The order in which a group lists
    its members is not significant in HDF5: reading uses keys, and lists are
    stored under integer keys and read in numerical order. *)
From Coq Require Import String.
From Verif Require Import Base CoordSys CellList Values Container Queue.
Open Scope string_scope.
Open Scope list_scope.
Open Scope Qc_scope.

Inductive key := KName (s : string) | KNum (n : nat).
#[global] Instance EqDec_key : EqDec key.
Proof. intros [s|n] [t|m]; try (right; discriminate).
  - destruct (string_dec s t); [left|right]; congruence.
  - destruct (Nat.eq_dec n m); [left|right]; congruence. Defined.

(** datasets hold scalars or arrays; groups have a type tag and members *)
Inductive tree :=
| TBool (b : bool)
| TInt (z : Z)
| TNum (q : Qc)
| TVal (v : fval)
| TArr (l : list tree)
| TGroup (tag : string) (members : list (key * tree)).

(** [hdf5_handle[key]] *)
Fixpoint member (k : key) (ms : list (key * tree)) : res tree :=
  match ms with
  | [] => Err KeyError
  | (k', t) :: ms' => if eqb k k' then Ok t else member k ms'
  end.
Definition field (name : string) (t : tree) : res tree :=
  match t with TGroup _ ms => member (KName name) ms | _ => Err KeyError end.
(** [key in hdf5_handle] *)
Definition has_field (name : string) (t : tree) : bool :=
  match field name t with Ok _ => true | Err _ => false end.
Definition tag_of (t : tree) : res string :=
  match t with TGroup g _ => Ok g | _ => Err KeyError end.

(** scalars and arrays *)
Definition dec_bool (t : tree) : res bool := match t with TBool b => Ok b | _ => Err ValueError end.
Definition dec_int (t : tree) : res Z := match t with TInt z => Ok z | _ => Err ValueError end.
Definition dec_num (t : tree) : res Qc := match t with TNum q => Ok q | _ => Err ValueError end.
Definition dec_val (t : tree) : res fval := match t with TVal v => Ok v | _ => Err ValueError end.
Definition enc_arr {A} (f : A -> tree) (l : list A) : tree := TArr (map f l).
Definition dec_arr {A} (g : tree -> res A) (t : tree) : res (list A) :=
  match t with TArr l => sequence (map g l) | _ => Err ValueError end.

Definition enc_point : point -> tree := enc_arr TNum.
Definition dec_point : tree -> res point := dec_arr dec_num.
Definition enc_nat (n : nat) : tree := TInt (Z.of_nat n).
Definition dec_nat (t : tree) : res nat := let! z := dec_int t in Ok (Z.to_nat z).

(** Python lists of objects: one member per element, keys "0", "1", ... *)
Definition enc_list {A} (f : A -> tree) (l : list A) : tree :=
  TGroup "builtins.list" (combine (map KNum (seq 0 (List.length l))) (map f l)).
Definition key_num (k : key) : nat := match k with KNum n => n | KName _ => 0 end.
Definition dec_list {A} (g : tree -> res A) (t : tree) : res (list A) :=
  match t with
  | TGroup _ ms =>
    sequence (map (fun kt => g (snd kt)) (sort_by (fun a b => (key_num (fst a) <=? key_num (fst b))%nat) ms))
  | _ => Err ValueError
  end.

(** result/_minimization.py:99-102 [MinimizationResult.to_hdf5]: one member per
    attribute ([message], a function of [status], is left out) *)
Definition enc_min (r : min_result) : tree :=
  TGroup "nodefinder.minimization_result"
    ([ (KName "pos", enc_point (r_pos r)); (KName "value", TVal (r_value r));
       (KName "num_iter", enc_nat (r_num_iter r)); (KName "num_fev", enc_nat (r_num_fev r));
       (KName "status", TInt (r_status r)); (KName "success", TBool (r_success r));
       (KName "simplex_history", enc_arr (enc_arr enc_point) (r_simplex_history r)) ] ++
     match r_fun_history r with
     | Some h => [ (KName "fun_simplex_history", enc_arr (enc_arr TVal) h) ]
     | None => []
     end).
(** result/_minimization.py:104-111 [from_hdf5]: every member becomes an
    attribute *)
Definition dec_min (t : tree) : res min_result :=
  let! p := field "pos" t in let! p := dec_point p in
  let! v := field "value" t in let! v := dec_val v in
  let! ni := field "num_iter" t in let! ni := dec_nat ni in
  let! nf := field "num_fev" t in let! nf := dec_nat nf in
  let! st := field "status" t in let! st := dec_int st in
  let! su := field "success" t in let! su := dec_bool su in
  let! sh := field "simplex_history" t in let! sh := dec_arr (dec_arr dec_point) sh in
  let! fh :=
    if has_field "fun_simplex_history" t then
      let! h := field "fun_simplex_history" t in
      let! h := dec_arr (dec_arr dec_val) h in Ok (Some h)
    else Ok None in
  Ok {| r_pos := p; r_value := v; r_success := su; r_status := st; r_num_fev := nf;
        r_num_iter := ni; r_simplex_history := sh; r_fun_history := fh |}.

(** result/_minimization.py:23-47: [HDF5_ATTRIBUTES = ['ancestor', 'child']];
    an attribute [pos] set on the wrapper is not saved.  Reading dispatches on
    the type tag. *)
Definition enc_result (r : result) : tree :=
  match r with
  | Plain m => enc_min m
  | Joined c a _ =>
    TGroup "nodefinder.joined_minimization_result"
      [ (KName "ancestor", enc_min a); (KName "child", enc_min c) ]
  end.
Definition dec_result (t : tree) : res result :=
  let! g := tag_of t in
  if String.eqb g "nodefinder.minimization_result" then let! m := dec_min t in Ok (Plain m)
  else if String.eqb g "nodefinder.joined_minimization_result" then
    let! a := field "ancestor" t in let! a := dec_min a in
    let! c := field "child" t in let! c := dec_min c in
    Ok (Joined c a None)
  else Err KeyError.

(** coordinate_system.py:34 [HDF5_ATTRIBUTES = ['limits', 'periodic']] *)
Definition enc_limits (l : list (Qc * Qc)) : tree := enc_arr (fun x => enc_point [fst x; snd x]) l.
Definition dec_pair (t : tree) : res (Qc * Qc) :=
  let! p := dec_point t in match p with [a; b] => Ok (a, b) | _ => Err ValueError end.
Definition enc_cs (cs : coordsys) : tree :=
  TGroup "nodefinder.coordinate_system"
    [ (KName "limits", enc_limits (limits cs)); (KName "periodic", TBool (periodic cs)) ].
Definition dec_cs (t : tree) : res coordsys :=
  let! l := field "limits" t in let! l := dec_arr dec_pair l in
  let! p := field "periodic" t in let! p := dec_bool p in
  Ok (coordinate_system l p).

(** _search_result_container.py:38-44 *)
Definition enc_container (c : container) : tree :=
  TGroup "nodefinder.search_result_container"
    [ (KName "coordinate_system", enc_cs (c_cs c));
      (KName "minimization_results", enc_list enc_result (minimization_results c));
      (KName "dist_cutoff", TNum (c_cutoff c));
      (KName "gap_threshold", TVal (c_gap c));
      (KName "refined_results", enc_list enc_point (cl_flat (c_refined c))) ].
Definition dec_container (t : tree) : res container :=
  let! cs := field "coordinate_system" t in let! cs := dec_cs cs in
  let! rs := field "minimization_results" t in let! rs := dec_list dec_result rs in
  let! d := field "dist_cutoff" t in let! d := dec_num d in
  let! g := field "gap_threshold" t in let! g := dec_val g in
  let! ps := (if has_field "refined_results" t then
                let! p := field "refined_results" t in dec_list dec_point p
              else Ok []) in
  container_new cs g d rs ps.

(** _queue.py:72-81 [ObjectQueue.from_hdf5] / [to_hdf5] *)
Definition enc_queue {A} (tag : string) (f : A -> tree) (order : list A -> list A) (q : queue A) : tree :=
  TGroup tag [ (KName "objects", enc_arr f (objects order q)) ].
Definition dec_queue {A} `{EqDec A} (norm : A -> A) (g : tree -> res A) (t : tree) : res (queue A) :=
  let! o := field "objects" t in let! o := dec_arr g o in
  Ok (queue_new norm o).

(** _controller_state.py:15-26 *)
Record controller_state := mk_state {
  st_result : container;
  st_simplex : queue simplex;
  st_position : queue point
}.
Definition enc_state (order : list simplex -> list simplex) (s : controller_state) : tree :=
  TGroup "nodefinder.controller_state"
    [ (KName "result", enc_container (st_result s));
      (KName "simplex_queue", enc_queue "nodefinder.simplex_queue" (enc_arr enc_point) order (st_simplex s));
      (KName "position_queue", enc_queue "nodefinder.position_queue" enc_point (fun l => l) (st_position s)) ].
Definition dec_state (t : tree) : res controller_state :=
  let! r := field "result" t in let! r := dec_container r in
  let! s := field "simplex_queue" t in let! s := dec_queue norm_simplex (dec_arr dec_point) s in
  let! p := field "position_queue" t in let! p := dec_queue norm_pos dec_point p in
  Ok {| st_result := r; st_simplex := s; st_position := p |}.
