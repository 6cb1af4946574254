(** Specification vocabulary for clustering. *)
From Verif Require Import Base CoordSys CoordSysR Graph SpecGraph.
From Coq Require Import Reals.
Open Scope R_scope.

(** Two different positions of the list at most [fs] apart. *)
Definition close (cs : coordsys) (fs : Qc) (positions : list point) (p q : point) : Prop :=
  In p positions /\ In q positions /\ p <> q /\ distance cs p q <= Qc2R fs.

(** Iteration order of sets and graph views: any order. *)
Definition any_order {A} (order : list A -> list A) : Prop := forall l, Permutation (order l) l.
