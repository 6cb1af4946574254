(** Model of the construction of a search from the user's arguments:
    nodefinder/search/_controller.py:39-110 [Controller.__init__] (all derived
    attributes) and nodefinder/search/_run.py:21-43 (the arguments). *)
From Coq Require Import String.
From Verif Require Import Base CoordSys CellList Values Container Queue Mesh Hdf5 NelderMead Controller.
Open Scope list_scope.
Open Scope Qc_scope.

(** [refinement_stencil]: [None], ['auto'] or an array.  (Any other string fails in
    the multiplication; not modelled.) *)
Inductive stencil_arg := StNone | StAuto | StGiven (st : list simplex).

(** [nelder_mead_kwargs]: the keyword arguments of _nelder_mead.py:55-65 a user
    may give ([None] here: key not given). *)
Record nm_kwargs := mk_nm_kwargs {
  u_xtol : option Qc;
  u_ftol : option fval;
  u_maxiter : option (option nat);
  u_maxfev : option (option nat);
  u_fprime : option (option Qc);
  u_keep : option bool
}.

(** search/_run.py:21-43: the keyword arguments of a search ([gap_fct], the saving and
    loading arguments are separate).  [gap_threshold] is a finite number. *)
Record search_args := mk_args {
  a_limits : list (Qc * Qc);
  a_periodic : bool;
  a_mesh : mesh_arg;
  a_stencil : stencil_arg;
  a_gap : Qc;
  a_feature : Qc;
  a_kwargs : nm_kwargs;
  a_parallel : nat;
  a_recheck : bool;
  a_count_cutoff : nat;
  a_simplex_cutoff : nat
}.

Definition default {A} (o : option A) (d : A) : A := match o with Some a => a | None => d end.

(** _controller.py:98-103: [ChainMap(nelder_mead_kwargs, defaults)]: a user's value
    wins; the remaining defaults are those of [root_nelder_mead] *)
Definition nelder_mead_kwargs (gap cutoff : Qc) (u : nm_kwargs) : nm_params :=
  {| p_xtol := default (u_xtol u) (Q2Qc (3 # 100) * cutoff);
     p_ftol := default (u_ftol u) (Fin (Q2Qc (5 # 100) * gap));
     p_maxiter := default (u_maxiter u) None;
     p_maxfev := default (u_maxfev u) None;
     p_fprime := default (u_fprime u) None;
     p_keep := default (u_keep u) true |}.

Section Construction.
  (** [get_circle_stencil(num_points=5)] and [get_sphere_stencil(num_points=30)] as
      the arrays of numbers they give (modelled over the reals in Stencil.v) *)
  Variables circle sphere : list simplex.

  (** refinement_stencil.py:39-53 [get_auto_stencil] *)
  Definition get_auto_stencil (dim : nat) : res (list simplex) :=
    if (dim =? 2)%nat then Ok circle
    else if (dim =? 3)%nat then Ok sphere
    else get_auto_mesh_stencil dim.

  (** _controller.py:91-98 *)
  Definition used_stencil (a : stencil_arg) (dim : nat) (cutoff : Qc) : res (option (list simplex)) :=
    match a with
    | StNone => Ok None
    | StAuto => let! st := get_auto_stencil dim in Ok (Some (scale_stencil cutoff st))
    | StGiven st => Ok (Some (scale_stencil cutoff st))
    end.

  (** _controller.py:39-110 [Controller.__init__]: configuration, arguments of the
      minimizer and initial state *)
  Definition make_controller (order : list simplex -> list simplex) (a : search_args)
      (initial_state : option controller_state) (load load_quiet : bool) (load_file : res controller_state) (force_initial_mesh : bool)
      : res (config * nm_params * controller_state) :=
    let cs := coordinate_system (a_limits a) (a_periodic a) in
    let! dm := check_dimensions (a_limits a) (a_mesh a) in
    let cutoff := dist_cutoff (a_feature a) in
    let! s := create_state order cs (Fin (a_gap a)) cutoff initial_state load load_quiet load_file (snd dm) force_initial_mesh in
    let! st := used_stencil (a_stencil a) (fst dm) cutoff in
    Ok (mk_config cs (Fin (a_gap a)) cutoff st (a_parallel a) (a_recheck a) (a_count_cutoff a) (a_simplex_cutoff a),
        nelder_mead_kwargs (a_gap a) cutoff (a_kwargs a), s).
End Construction.
