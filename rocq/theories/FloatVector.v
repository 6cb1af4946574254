(** Model, in IEEE double precision, of [CoordinateSystem.distance] and
    [CoordinateSystem.connecting_vector] (nodefinder/coordinate_system.py:70-92) for a periodic
    box, including the assertion in line 91.  Positions are lists of doubles; [boxes] lists the
    limits of every coordinate. *)
From Coq Require Import ZArith List.
From Flocq Require Import Core BinarySingleNaN.
From Verif Require Import Base Float.
Import ListNotations.
Open Scope list_scope.
Open Scope Z_scope.

Definition fsqrt : double -> double := Bsqrt mode_NE.
Definition fopp : double -> double := Bopp.
(** [np.minimum]: NaN if either is *)
Definition fmin (x y : double) : double := if is_nan x then x else if is_nan y then y else if flt y x then y else x.
(** numpy applies binary operations coordinate by coordinate *)
Definition per_coordinate {A} (f : double * double -> double -> double -> A) (boxes : list (double * double)) (p q : list double) : list A :=
  map (fun x => f (fst (fst x)) (snd (fst x)) (snd x)) (combine (combine boxes p) q).

(** coordinate_system.py:75-76 *)
Definition fdelta (b : double * double) (p1 p2 : double) : double :=
  let s := fsize (fst b) (snd b) in
  let d := np_mod (fsub p2 p1) s in fmin (fsub s d) d.
(** [la.norm(delta, axis=-1)]: the square root of the sum of the squares *)
Definition fnorm (l : list double) : double := fsqrt (fold_left fadd (map (fun x => fmul x x) l) (B754_zero false)).
(** coordinate_system.py:70-79 [distance], periodic *)
Definition fdistance (boxes : list (double * double)) (p1 p2 : list double) : double := fnorm (per_coordinate fdelta boxes p1 p2).

(** coordinate_system.py:88-90 *)
Definition fconnect (b : double * double) (p1 p2 : double) : double :=
  let s := fsize (fst b) (snd b) in
  let d := np_mod (fsub p2 p1) s in
  let dn := fsub d s in
  if flt (fopp dn) d then dn else d.
(** the literal [1e-8] *)
Definition tolerance : double := of_dyadic 6044629098073146 (-79).
(** coordinate_system.py:85-92 [connecting_vector], periodic *)
Definition fconnecting_vector (boxes : list (double * double)) (p1 p2 : list double) : res (list double) :=
  let r := per_coordinate fconnect boxes p1 p2 in
  let moved := map (fun x => fadd (fst x) (snd x)) (combine r p1) in
  if flt (fdistance boxes moved p2) tolerance then Ok r else Err AssertionError.
