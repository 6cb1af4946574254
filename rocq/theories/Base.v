(** Shared vocabulary: Python exceptions as values, exact scalars, small list
    helpers.  No property theorems here. *)
From Coq Require Export List Arith ZArith Lia Bool Permutation.
From Coq Require Export QArith Qcanon Qround Lqa.
Export ListNotations.
Set Implicit Arguments.

(** ** Exceptions as values *)

(** The Python exceptions the modelled code raises, catches or lets pass. *)
Inductive exn : Type :=
| ValueError | IndexError | KeyError | TypeError | AttributeError
| AssertionError | QueueEmpty | IOError | NotImplementedError | NetworkXNoPath | RuntimeError
| UserExn (n : nat)      (* any [Exception] raised by user code *)
| BaseExn (n : nat)      (* KeyboardInterrupt, SystemExit, ...: not an [Exception] *)
| OutOfFuel.             (* not Python: recursion bound of the model hit *)

Inductive res (A : Type) : Type :=
| Ok (a : A)
| Err (e : exn).
Arguments Ok {A} a.
Arguments Err {A} e.

Definition bind {A B} (x : res A) (f : A -> res B) : res B :=
  match x with Ok a => f a | Err e => Err e end.
Notation "'let!' x ':=' e 'in' f" := (bind e (fun x => f))
  (at level 200, x pattern, right associativity).

(** ** Decidable equality (Python [==] on hashable values) *)
Class EqDec (A : Type) := eq_dec : forall x y : A, {x = y} + {x <> y}.
#[global] Instance EqDec_Qc : EqDec Qc := Qc_eq_dec.
#[global] Instance EqDec_Z : EqDec Z := Z.eq_dec.
#[global] Instance EqDec_nat : EqDec nat := Nat.eq_dec.
#[global] Instance EqDec_list {A} `{EqDec A} : EqDec (list A) := list_eq_dec eq_dec.
#[global] Instance EqDec_prod {A B} `{EqDec A} `{EqDec B} : EqDec (A * B).
Proof. intros [a b] [a' b']. destruct (eq_dec a a'), (eq_dec b b'); [left|right..]; congruence. Defined.

Definition eqb {A} `{EqDec A} (x y : A) : bool := if eq_dec x y then true else false.
(** [x in xs] *)
Definition mem {A} `{EqDec A} (x : A) (l : list A) : bool := existsb (eqb x) l.
(** [set.remove]/[set.discard] on a duplicate-free list *)
Definition remove_all {A} `{EqDec A} (x : A) (l : list A) : list A :=
  filter (fun y => negb (eqb x y)) l.
(** [set.add] on a duplicate-free list *)
Definition set_add {A} `{EqDec A} (x : A) (l : list A) : list A :=
  if mem x l then l else l ++ [x].
(** [set.update] *)
Definition set_update {A} `{EqDec A} (l new : list A) : list A :=
  fold_left (fun acc x => set_add x acc) new l.
(** [set(l)], keeping first occurrences *)
Definition dedup {A} `{EqDec A} (l : list A) : list A := set_update [] l.

(** ** Lists *)
Fixpoint map2 {A B C} (f : A -> B -> C) (l : list A) (m : list B) : list C :=
  match l, m with
  | a :: l', b :: m' => f a b :: map2 f l' m'
  | _, _ => []
  end.

(** [itertools.product] of a list of lists: the last factor varies fastest. *)
Fixpoint product {A} (ls : list (list A)) : list (list A) :=
  match ls with
  | [] => [[]]
  | l :: ls' => flat_map (fun a => map (cons a) (product ls')) l
  end.

(** Insertion sort; for a total order this is Python's [sorted]. *)
Fixpoint insert_by {A} (leb : A -> A -> bool) (x : A) (l : list A) : list A :=
  match l with
  | [] => [x]
  | y :: l' => if leb x y then x :: l else y :: insert_by leb x l'
  end.
Definition sort_by {A} (leb : A -> A -> bool) (l : list A) : list A :=
  fold_right (insert_by leb) [] l.

(** ** Exact scalars *)
Open Scope Qc_scope.
Definition qc (z : Z) : Qc := Q2Qc (inject_Z z).
Definition half : Qc := Q2Qc (1 # 2).

Definition ltb (x y : Qc) : bool := if Qclt_le_dec x y then true else false.
Definition leb (x y : Qc) : bool := negb (ltb y x).
Definition qmin (x y : Qc) : Qc := if ltb y x then y else x.
Definition qmax (x y : Qc) : Qc := if ltb x y then y else x.
Definition qabs (x : Qc) : Qc := if ltb x 0 then - x else x.
Definition qsum (l : list Qc) : Qc := fold_right Qcplus 0 l.

(** [floor] *)
Definition qfloor (x : Qc) : Z := Qfloor (this x).
(** [int(x)] / [np.array(x, dtype=int)]: truncation toward zero *)
Definition qtrunc (x : Qc) : Z := if ltb x 0 then (- qfloor (- x))%Z else qfloor x.
(** Python / NumPy [x % s] for [s > 0] *)
Definition pymod (x s : Qc) : Qc := x - s * qc (qfloor (x / s)).

(** Lexicographic comparison of tuples, as used by [sorted] on coordinates. *)
Fixpoint lex_leb {A} `{EqDec A} (lt : A -> A -> bool) (x y : list A) : bool :=
  match x, y with
  | [], _ => true
  | _ :: _, [] => false
  | a :: x', b :: y' => if eqb a b then lex_leb lt x' y' else lt a b
  end.
