(** Model of the degree count and shape name of lines:
    nodefinder/identify/_evaluate/_line/_run.py:44-47 and
    nodefinder/identify/result/_shapes.py:84-95. *)
From Verif Require Import Base Graph Dimension.
Open Scope list_scope.

(** [Counter(iterable)] (see [counter_add] in Dimension.v) *)
Definition count_values (l : list nat) : counter := fold_left (fun c d => counter_add d c) l [].

(** _line/_run.py:44-47 [_create_degree_count] *)
Definition create_degree_count {A W} `{EqDec A} (g : graph A W) : counter :=
  filter (fun kn => negb (Nat.eqb (fst kn) 2)) (count_values (map (degree g) (g_nodes g))).

(** order of pairs of numbers *)
Definition pair_leb (a b : nat * nat) : bool :=
  (fst a <? fst b)%nat || ((fst a =? fst b)%nat && (snd a <=? snd b)%nat).

Inductive name := ClosedLoop | OpenLine | Unknown.
(** _shapes.py:84-95 [shape_name]: lookup of [tuple(sorted(items))] *)
Definition shape_name (c : counter) : name :=
  match sort_by pair_leb c with
  | [] => ClosedLoop
  | [(k, n)] => if (k =? 1)%nat && (n =? 2)%nat then OpenLine else Unknown
  | _ => Unknown
  end.
