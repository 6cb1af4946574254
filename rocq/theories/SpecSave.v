(** Specification vocabulary for saving. *)
From Coq Require Import String.
From Verif Require Import Base CoordSys SpecGeom CellList Values Container SpecContainer Queue Hdf5 SpecHdf5 Controller SpecSearch SaveFile.
Open Scope list_scope.

(** What can be assumed of the operating system: the temporary file is new, and
    the assignment after the renaming can only be hit by an interrupt. *)
Record valid_env (file : path) (d : disk) (env : save_env) : Prop := {
  ve_new : forall tmp, e_open env = Ok tmp -> d tmp = None /\ tmp <> file;
  ve_order : forall l, Permutation (e_order env l) l;
  ve_clear : forall e, e_clear env = Some e -> is_exception e = false
}.

(** The complete document in a file, if any. *)
Definition doc_of (c : option content) : option tree := match c with Some (Doc t) => Some t | _ => None end.

(** Any number of saves, failing or not, and search events.  A save that ends with
    something else than an [Exception] (an interrupt) ends the process. *)
Inductive process (g : config) (file : path) (d0 : disk) (s0 : controller_state) : proc -> Prop :=
| process_start : process g file d0 s0 (mk_proc d0 (start s0 (doc_of (d0 file))))
| process_event d k ev k' : process g file d0 s0 (mk_proc d k) -> valid_event (g_cs g) ev ->
    (forall order, ev <> ESave order) -> step g k ev = Some k' -> process g file d0 s0 (mk_proc d k')
| process_save d k env tr d' s' o : process g file d0 s0 (mk_proc d k) -> valid_env file d env ->
    save (Some file) env d (k_state k) = (tr, (d', s', o)) -> (forall n, o <> Err (BaseExn n)) ->
    process g file d0 s0 (mk_proc d' (with_state k s')).

(** The disks that can be found when the process has died: between two saves or
    after some operation of a save. *)
Inductive found_after_crash (g : config) (file : path) (d0 : disk) (s0 : controller_state) : disk -> Prop :=
| crash_idle d k : process g file d0 s0 (mk_proc d k) -> found_after_crash g file d0 s0 d
| crash_saving d k env tr r d' : process g file d0 s0 (mk_proc d k) -> valid_env file d env ->
    save (Some file) env d (k_state k) = (tr, r) -> In d' tr -> found_after_crash g file d0 s0 d'.
