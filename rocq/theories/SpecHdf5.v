(** Independent specification vocabulary for serialization. *)
From Verif Require Import Base CoordSys SpecGeom Values Hdf5.

(** The same file: groups may list their members in a different order. *)
Inductive same_file : tree -> tree -> Prop :=
| same_refl t : same_file t t
| same_group tag ms ms' ms'' :
    Forall2 (fun a b => fst a = fst b /\ same_file (snd a) (snd b)) ms ms' ->
    Permutation ms' ms'' -> same_file (TGroup tag ms) (TGroup tag ms'').

(** Saving is [enc]; loading whatever the file looks like gives [v]. *)
Definition loads_as {A} (dec : tree -> res A) (t : tree) (v : A) : Prop :=
  forall t', same_file t t' -> dec t' = Ok v.

(** The position stored on a joined result (if any) is, up to normalisation,
    that of its child: true when results come from a minimization or a file. *)
Definition own_position (cs : coordsys) (r : result) : Prop :=
  match r with
  | Joined c _ (Some p) => normalize_position cs p = normalize_position cs (r_pos c)
  | _ => True
  end.

(** The child of a joined result has a position of the right dimension. *)
Definition child_pos (cs : coordsys) (r : result) : Prop := match r with Plain _ => True | Joined c _ _ => is_pos cs (r_pos c) end.
