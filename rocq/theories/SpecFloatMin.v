(** Independent specification vocabulary for minimizations in double precision. *)
From Verif Require Import Base NelderMead.
From Coq Require Import ZArith.
From Flocq Require Import Core BinarySingleNaN.
From Verif Require Import Float FloatVector FloatMin.
From Coq Require Export Sorting.Sorted.
Open Scope list_scope.

(** What [np.argsort] guarantees: a permutation of the indices putting the values in
    non-decreasing order, NaN last (any order among equals). *)
Definition dargsort_ok (argsort : list double -> list nat) : Prop :=
  forall l, Permutation (argsort l) (seq 0 (length l)) /\
            Sorted (fun x y => dnle x y = true) (map (fun i => nth i l nan) (argsort l)).
(** What [np.min] guarantees: one of the smallest elements, NaN if there is one. *)
Definition dmin_ok (np_dmin : list double -> double) : Prop :=
  forall l, l <> [] -> if existsb is_nan l then np_dmin l = nan
            else In (np_dmin l) l /\ forall x, In x l -> dle (np_dmin l) x = true.

(** A starting simplex in [n >= 1] dimensions: n + 1 points. *)
Definition is_dsimplex (n : nat) (s : list fpoint) : Prop :=
  (1 <= n)%nat /\ length s = S n /\ Forall (fun x => length x = n) s.
(** No evaluation returned NaN. *)
Definition dnan_free (log : list (fpoint * double)) : Prop := Forall (fun xv => snd xv <> nan) log.
(** the same number (0 and -0 are) *)
Definition same_number (x y : double) : Prop := dle x y = true /\ dle y x = true.

(** Convergence: the computed differences to the first vertex are at most [xtol] in every
    coordinate, and the computed differences of the values at most [ftol]. *)
Definition dtolerances_met (xtol ftol : double) (sim : list fpoint) (fsim : list double) : Prop :=
  match sim, fsim with
  | x0 :: xs, f0 :: fs =>
    Forall (fun x => Forall2 (fun a b => dle (Babs (fsub a b)) xtol = true) x x0) xs /\
    Forall (fun f => dle (Babs (fsub f0 f)) ftol = true) fs
  | _, _ => False
  end.
