(** Independent specification vocabulary for minimizations. *)
From Verif Require Import Base CoordSys Values NelderMead.
From Coq Require Export Sorting.Sorted.
Open Scope Qc_scope.

(** What [np.argsort] guarantees: a permutation of the indices putting the
    values in non-decreasing order, NaN last (any order among equals). *)
Definition argsort_ok (argsort : list fval -> list nat) : Prop :=
  forall l, Permutation (argsort l) (seq 0 (length l)) /\
            Sorted (fun x y => nle x y = true) (map (fun i => nth i l NaN) (argsort l)).

(** A starting simplex in [n >= 1] dimensions: n + 1 points. *)
Definition is_simplex (n : nat) (s : list point) : Prop :=
  (1 <= n)%nat /\ length s = S n /\ Forall (fun x => length x = n) s.

(** No evaluation returned NaN. *)
Definition nan_free (log : list (point * fval)) : Prop := Forall (fun xv => snd xv <> NaN) log.

(** All coordinates within [tol] of each other. *)
Definition close (tol : Qc) (x y : point) : Prop := Forall2 (fun a b => qabs (a - b) <= tol) x y.

(** Convergence: all vertices within [xtol] of the first one and all values
    within [ftol] of the first one. *)
Definition tolerances_met (xtol : Qc) (ftol : fval) (sim : list point) (fsim : list fval) : Prop :=
  match sim, fsim with
  | x0 :: xs, f0 :: fs =>
    Forall (fun x => close xtol x x0) xs /\ Forall (fun f => fle (fabsdiff f0 f) ftol = true) fs
  | _, _ => False
  end.

(** Longest squared edge of a simplex is [m]. *)
Definition longest_edge_sq (sim : list point) (m : Qc) : Prop :=
  (exists e, In e (pairs sim) /\ edge_sq e = m) /\ (forall e, In e (pairs sim) -> edge_sq e <= m).

(** Affine independence of points in [n] dimensions. *)
Definition aff_indep (n : nat) (ps : list point) : Prop :=
  forall cs, length cs = length ps -> qsum cs = 0 ->
  (forall i, (i < n)%nat -> qsum (map2 (fun c p => c * nth i p 0) cs ps) = 0) ->
  Forall (fun c => c = 0) cs.

(** A stateless function that never fails. *)
Definition stateless (f : point -> fval) (func : nat -> point -> res fval) : Prop :=
  forall k x, func k x = Ok (f x).
