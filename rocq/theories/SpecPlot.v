(** Specification vocabulary for plots. *)
From Verif Require Import Base CoordSys SpecGeom CoordSysR Graph SpecGraph Shape Identify Plot.
From Coq Require Import Reals.
Open Scope list_scope.

(** The segments of the line through the points [p]. *)
Definition segments {A} (p : list A) : list (A * A) := combine p (tl p).

Section Spec.
  Context {A : Type} `{EqDec A}.
  Definition joins_ends (u v : A) (s : A * A) : bool := (eqb (fst s) u && eqb (snd s) v) || (eqb (fst s) v && eqb (snd s) u).
  (** How often the segment between [u] and [v], in either direction, is part of the lines [paths]. *)
  Definition times_drawn (u v : A) (paths : list (list A)) : nat := length (filter (joins_ends u v) (flat_map segments paths)).
End Spec.

(** At most twice the feature size apart ([None]: no limit). *)
Definition within (fs : option Qc) (u v : point) : Prop :=
  match fs with None => True | Some f => (euclid u v <= 2 * Qc2R f)%R end.

(** The lines [paths] show the graph: every edge that is not too long once, nothing else. *)
Definition shows (fs : option Qc) (g : graph point unit) (paths : list (list point)) : Prop :=
  (forall u v, has_edge g u v -> within fs u v -> times_drawn u v paths = 1%nat) /\
  (forall u v, times_drawn u v paths <> 0%nat -> has_edge g u v /\ within fs u v) /\
  Forall (fun p => p <> []) paths /\
  (forall x, In x (concat paths) -> exists y, has_edge g x y).

(** What is to be drawn for an identification result. *)
Definition shown (fs : Qc) (r : ident_result) (ds : list drawing) : Prop :=
  match i_shape r with
  | None => ds = [Scatter (i_positions r)]
  | Some (NodalPoint p) => ds = [Scatter [p]]
  | Some (NodalLine g _) =>
      if (length (g_edges g) =? 0)%nat then ds = [Scatter (g_nodes g)]
      else exists paths, ds = map Lines paths /\ shows (Some fs) g paths
  end.
