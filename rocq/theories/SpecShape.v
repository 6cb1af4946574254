(** Specification vocabulary for the shapes of lines. *)
From Verif Require Import Base Graph SpecGraph.
Open Scope list_scope.

Section Spec.
  Context {A W : Type} `{EqDec A}.

  (** [u] and [v] are next to each other in the list [p] *)
  Definition next_in (p : list A) (u v : A) : Prop :=
    exists l1 l2, p = l1 ++ u :: v :: l2 \/ p = l1 ++ v :: u :: l2.
  (** [u] and [v] are the first and the last element of [p] *)
  Definition ends_of (p : list A) (u v : A) : Prop :=
    exists m, p = u :: m ++ [v] \/ p = v :: m ++ [u].

  (** The nodes in the order of [p] form a line: every node occurs once and exactly
      the nodes next to each other are joined by edges. *)
  Definition is_line (g : graph A W) (p : list A) : Prop :=
    NoDup p /\ (2 <= length p)%nat /\ (forall x, In x p <-> In x (g_nodes g)) /\
    forall u v, has_edge g u v <-> next_in p u v.
  (** ... a ring: additionally the first is joined to the last. *)
  Definition is_ring (g : graph A W) (p : list A) : Prop :=
    NoDup p /\ (3 <= length p)%nat /\ (forall x, In x p <-> In x (g_nodes g)) /\
    forall u v, has_edge g u v <-> next_in p u v \/ ends_of p u v.

  Definition odd_nodes (g : graph A W) : list A := filter (fun x => Nat.odd (degree g x)) (g_nodes g).
End Spec.
