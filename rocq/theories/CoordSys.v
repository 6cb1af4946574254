(** Model of nodefinder/coordinate_system.py.

    Coordinates are exact rationals instead of IEEE doubles (no rounding, no
    NaN/inf).  NumPy's element-wise operations on arrays of shape (dim,) are
    [map2] over the list of dimensions; positions whose length differs from the
    dimension (a broadcasting error in NumPy) are outside the model. *)
From Verif Require Import Base.
Open Scope Qc_scope.

Notation point := (list Qc).

(** coordinate_system.py:17-40: the attributes [limits] and [periodic];
    [dim] and [size] are derived. *)
Record coordsys := mk_cs { limits : list (Qc * Qc); periodic : bool }.

(** [sorted(x)] for a pair, coordinate_system.py:37 *)
Definition sort2 (l : Qc * Qc) : Qc * Qc :=
  if ltb (snd l) (fst l) then (snd l, fst l) else l.

(** coordinate_system.py:36-40 [CoordinateSystem.__init__] *)
Definition coordinate_system (lims : list (Qc * Qc)) (per : bool) : coordsys :=
  {| limits := map sort2 lims; periodic := per |}.

(** coordinate_system.py:39 *)
Definition dim (cs : coordsys) : nat := length (limits cs).
(** coordinate_system.py:40, one component *)
Definition size1 (l : Qc * Qc) : Qc := snd l - fst l.
(** coordinate_system.py:40 *)
Definition size (cs : coordsys) : list Qc := map size1 (limits cs).

(** coordinate_system.py:55-62 [get_frac], one component *)
Definition get_frac1 (per : bool) (l : Qc * Qc) (x : Qc) : Qc :=
  let frac := (x - fst l) / size1 l in
  if per then pymod frac 1 else frac.
Definition get_frac (cs : coordsys) (pos : point) : point :=
  map2 (get_frac1 (periodic cs)) (limits cs) pos.

(** coordinate_system.py:64-68 [get_pos] *)
Definition get_pos1 (l : Qc * Qc) (f : Qc) : Qc := f * size1 l + fst l.
Definition get_pos (cs : coordsys) (frac : point) : point :=
  map2 get_pos1 (limits cs) frac.

(** coordinate_system.py:74-78: one component of [delta] *)
Definition delta1 (per : bool) (l : Qc * Qc) (pq : Qc * Qc) : Qc :=
  let (p1, p2) := pq in
  if per then
    let d := pymod (p2 - p1) (size1 l) in
    qmin (size1 l - d) d
  else p2 - p1.

(** coordinate_system.py:70-79 [distance], squared: [la.norm(delta)] is the
    square root of this (see CoordSysR.v for the real-valued version). *)
Definition dist_sq (cs : coordsys) (p1 p2 : point) : Qc :=
  qsum (map (fun d => d * d) (map2 (delta1 (periodic cs)) (limits cs) (combine p1 p2))).

(** [distance(p1, p2) < c] and [distance(p1, p2) <= c], decided on squares. *)
Definition dist_lt (cs : coordsys) (p1 p2 : point) (c : Qc) : bool :=
  ltb 0 c && ltb (dist_sq cs p1 p2) (c * c).
Definition dist_le (cs : coordsys) (p1 p2 : point) (c : Qc) : bool :=
  leb 0 c && leb (dist_sq cs p1 p2) (c * c).

(** Element-wise [+] and [-]. *)
Definition vadd : point -> point -> point := map2 Qcplus.
Definition vsub : point -> point -> point := map2 Qcminus.

(** coordinate_system.py:88-90: one component of [res] *)
Definition conn1 (l : Qc * Qc) (pq : Qc * Qc) : Qc :=
  let (p1, p2) := pq in
  let d := pymod (p2 - p1) (size1 l) in
  let dn := d - size1 l in
  if ltb (- dn) d then dn else d.

(** the tolerance 1e-8 of coordinate_system.py:91 *)
Definition assert_tol : Qc := Q2Qc (1 # 100000000).

(** coordinate_system.py:81-92 [connecting_vector]; the assertion of line 91
    is kept. *)
Definition connecting_vector (cs : coordsys) (p1 p2 : point) : res point :=
  if negb (periodic cs) then Ok (vsub p2 p1)
  else
    let r := map2 conn1 (limits cs) (combine p1 p2) in
    if dist_lt cs (vadd r p1) p2 assert_tol then Ok r else Err AssertionError.

(** [np.average(ps, axis=0)] for a non-empty list of vectors of length [n] *)
Definition vsum (n : nat) (ps : list point) : point :=
  fold_right vadd (repeat 0 n) ps.
Definition mean (n : nat) (ps : list point) : point :=
  map (fun x => x / qc (Z.of_nat (length ps))) (vsum n ps).

(** Evaluate a list of computations in order, stopping at the first exception
    (Python list comprehension). *)
Fixpoint sequence {A} (l : list (res A)) : res (list A) :=
  match l with
  | [] => Ok []
  | Ok a :: l' => let! r := sequence l' in Ok (a :: r)
  | Err e :: _ => Err e
  end.

(** coordinate_system.py:94-103 [average].  [np.average] of an empty list
    (only a warning and NaN in NumPy) is modelled as a ValueError; the code
    never averages an empty list. *)
Definition average (cs : coordsys) (ps : list point) : res point :=
  if negb (periodic cs) then
    match ps with [] => Err ValueError | _ => Ok (mean (dim cs) ps) end
  else
    match ps with
    | [] => Err IndexError
    | origin :: _ =>
      let! deltas := sequence (map (connecting_vector cs origin) ps) in
      Ok (map2 pymod (vadd origin (mean (dim cs) deltas)) (size cs))
    end.

(** coordinate_system.py:105-114 [normalize_position] *)
Definition normalize1 (per : bool) (l : Qc * Qc) (x : Qc) : Qc :=
  if per then pymod (x - fst l) (size1 l) + fst l else x.
Definition normalize_position (cs : coordsys) (pos : point) : point :=
  map2 (normalize1 (periodic cs)) (limits cs) pos.
