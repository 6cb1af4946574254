(** Independent specification vocabulary for the arguments of a search. *)
From Coq Require Import String.
From Verif Require Import Base CoordSys Values Container Queue NelderMead SpecMin Controller Config.
Open Scope list_scope.
Open Scope Qc_scope.

(** A stencil of proper simplices of which no two have the same vertices. *)
Definition usable_stencil (dim : nat) (st : list simplex) : Prop :=
  Forall (is_simplex dim) st /\
  forall i j, (i < length st)%nat -> (j < length st)%nat -> Permutation (nth i st []) (nth j st []) -> i = j.

(** Arguments with which a search can be run: limits (in either order) that differ,
    a positive feature size - without periodicity at most six times each side of
    the box -, one positive mesh size per dimension, a usable stencil. *)
Record valid_args (circle sphere : list simplex) (a : search_args) : Prop := {
  va_dim : a_limits a <> [];
  va_limits : Forall (fun l => fst l <> snd l) (a_limits a);
  va_feature : 0 < a_feature a;
  va_lookup : a_periodic a = true \/ Forall (fun l => a_feature a <= qc 6 * qabs (snd l - fst l)) (a_limits a);
  va_mesh : match a_mesh a with
            | MeshInt n => (1 <= n)%nat
            | MeshList l => length l = length (a_limits a) /\ Forall (fun n => (1 <= n)%nat) l
            end;
  va_stencil : match a_stencil a with
               | StNone => True
               | StGiven st => usable_stencil (length (a_limits a)) st
               | StAuto => (length (a_limits a) = 2%nat -> usable_stencil 2 circle) /\ (length (a_limits a) = 3%nat -> usable_stencil 3 sphere)
               end
}.

(** The stencil [st] is [raw] multiplied by [c]. *)
Definition multiplied (c : Qc) (raw st : list simplex) : Prop :=
  Forall2 (Forall2 (Forall2 (fun x y => y = c * x))) raw st.
