(** Independent specification vocabulary for the initial mesh. *)
From Verif Require Import Base CoordSys.
Open Scope Qc_scope.

Definition nth_lo (limits : list (Qc * Qc)) (i : nat) : Qc := fst (nth i limits (0, 0)).
Definition nth_hi (limits : list (Qc * Qc)) (i : nat) : Qc := snd (nth i limits (0, 0)).

(** All limits increasing, one positive mesh size per dimension. *)
Definition mesh_args (limits : list (Qc * Qc)) (mesh_size : list nat) : Prop :=
  length mesh_size = length limits /\ Forall (fun l => fst l < snd l) limits /\ Forall (fun m => (1 <= m)%nat) mesh_size.

(** Number of mesh points. *)
Definition mesh_count (mesh_size : list nat) : nat := fold_right Nat.mul 1%nat mesh_size.
