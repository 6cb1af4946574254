(** Model, in IEEE double precision, of the checks that use neighbour lookups:
    nodefinder/search/_controller.py:276-305 and nodefinder/search/_fake_potential.py
    (Container.v has the same in exact arithmetic). *)
From Verif Require Import Base CoordSys CellList.
From Coq Require Import ZArith.
From Flocq Require Import Core BinarySingleNaN.
From Verif Require Import Float FloatVector NelderMead FloatMin FloatCell.
Open Scope list_scope.

(** _fake_potential.py:26-32 [__call__] *)
Definition ffake_potential (c : fcontainer) (width : double) (q : fpoint) : res double :=
  let! ds := fneighbour_distances c q in
  Ok (if existsb (fun d => flt d width) ds then B754_infinity false else B754_zero false).

(** _controller.py:276-290 [_check_pos_refinement] *)
Fixpoint frecheck_loop (cutoff : double) (count_cutoff count : nat) (ds : list double) : bool :=
  match ds with
  | [] => true
  | d :: ds' =>
    let count := if flt d cutoff then S count else count in
    if (count_cutoff <? count)%nat then false
    else frecheck_loop cutoff count_cutoff count ds'
  end.
Definition fcheck_pos_refinement (c : fcontainer) (cutoff : double) (count_cutoff : nat) (p : fpoint) : res bool :=
  let! ds := frefined_distances c p in
  Ok (frecheck_loop cutoff count_cutoff 0 ds).

(** _controller.py:292-305 [_check_simplex]; the inner loop stops at the first neighbour within
    the cutoff *)
Fixpoint fcheck_simplex_loop (c : fcontainer) (cutoff : double) (check_cutoff count : nat) (vs : list fpoint) : res bool :=
  match vs with
  | [] => Ok true
  | p :: vs' =>
    let! ds := fneighbour_distances c p in
    if existsb (fun d => flt d cutoff) ds then
      if (check_cutoff <? S count)%nat then Ok false
      else fcheck_simplex_loop c cutoff check_cutoff (S count) vs'
    else fcheck_simplex_loop c cutoff check_cutoff count vs'
  end.
Definition fcheck_simplex (c : fcontainer) (cutoff : double) (check_cutoff : nat) (simplex : list fpoint) : res bool :=
  fcheck_simplex_loop c cutoff check_cutoff 0 simplex.

(** _controller.py:205-217: a position is refined after the check has passed (with
    [recheck_pos_dist] and recheck_count_cutoff 0; only the container is modelled here) *)
Definition frefine_step (c : fcontainer) (cutoff : double) (p : fpoint) : res fcontainer :=
  let! ok := fcheck_pos_refinement c cutoff 0 p in
  if ok then fset_refined c p else Ok c.
