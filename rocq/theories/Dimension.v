(** Model of nodefinder/identify/_dimension.py.  Positions are exact rationals,
    volumes and averages exact reals.  The random generator is part of the
    environment: see [rng]. *)
From Verif Require Import Base CoordSys CoordSysR Graph.
From Coq Require Import Reals.
Open Scope list_scope.

Definition tuple := list point.

(** [itertools.combinations(l, r=k)] *)
Fixpoint combinations {A} (k : nat) (l : list A) : list (list A) :=
  match l with
  | [] => match k with O => [[]] | S _ => [] end
  | x :: l' => match k with
               | O => [[]]
               | S k' => map (cons x) (combinations k' l') ++ combinations k l'
               end
  end.
(** [scipy.special.binom(n, k)]; exact, where scipy returns a float *)
Fixpoint binom (n k : nat) : nat :=
  match k, n with
  | O, _ => 1
  | S _, O => 0
  | S k', S n' => binom n' k' + binom n' k
  end%nat.

(** What the module [random] returns during one call of [_has_dimension]: the
    results of the calls in line 143, and a way to sample from a set (line 157: the first
    elements of a shuffled list) *)
Record rng := mk_rng { draws : list tuple; shuffle : list tuple -> list tuple }.

(** [tuple(sorted(...))] *)
Definition sort_tuple (t : tuple) : tuple := sort_by (lex_leb ltb) t.

(** _dimension.py:142-147: the tuples yielded and whether the loop was left (the
    second case: the draws of the environment are used up while the loop is running) *)
Fixpoint draw_random (num : nat) (used : list tuple) (ds : list tuple) : list tuple * bool :=
  if (num <=? 2 * length used)%nat then ([], true)
  else match ds with
  | [] => ([], false)
  | d :: ds' =>
    let val := sort_tuple d in
    if mem val used then draw_random num used ds'
    else let (ys, left) := draw_random num (set_add val used) ds' in (val :: ys, left)
  end.

(** _dimension.py:155-161: batches of at most ten; every batch is non-empty, so
    [fuel] = number of tuples suffices *)
Fixpoint draw_batches (fuel : nat) (sh : list tuple -> list tuple) (remaining : list tuple) : list tuple :=
  match remaining, fuel with
  | [], _ => []
  | _, O => []
  | _, S fuel' =>
    let vals := firstn 10 (sh remaining) in
    vals ++ draw_batches fuel' sh (filter (fun t => negb (mem t vals)) remaining)
  end.

(** _dimension.py:132-161 [draw_neighbour_tuple]: all tuples yielded, and whether the
    generator ends after them *)
Definition draw_neighbour_tuple (r : rng) (neighbours : list point) (dim min_eval : nat) : list tuple * bool :=
  let num_combinations := binom (length neighbours) dim in
  let (first, left) := if (10 * min_eval <? num_combinations)%nat then draw_random num_combinations [] (draws r) else ([], true) in
  if left then
    let rest := filter (fun t => negb (mem t first)) (dedup (map sort_tuple (combinations dim neighbours))) in
    (first ++ draw_batches (length rest) (shuffle r) rest, true)
  else (first, false).

(** Determinant (expansion along the first row) *)
Fixpoint remove_nth {A} (n : nat) (l : list A) : list A :=
  match n, l with
  | _, [] => []
  | O, _ :: l' => l'
  | S n', a :: l' => a :: remove_nth n' l'
  end.
Fixpoint det (n : nat) (m : list (list Qc)) : Qc :=
  match n, m with
  | S n', row :: rows =>
    qsum (map (fun j => (if Nat.even j then 1 else - (1)) * nth j row 0 * det n' (map (remove_nth j) rows))%Qc (seq 0 n))
  | _, _ => 1%Qc
  end.
Definition dot (v w : point) : Qc := qsum (map2 Qcmult v w).
Definition gram (vs : list point) : list (list Qc) := map (fun v => map (dot v) vs) vs.

(** _dimension.py:180-193 [_get_volume].  The product of the singular values of a
    matrix with at most as many rows as columns is the square root of its Gram
    determinant; there are fewer singular values than rows otherwise. *)
Definition get_volume (cs : coordsys) (pos : point) (t : tuple) : res R :=
  let! vs := sequence (map (fun nbr => connecting_vector cs nbr pos) t) in
  Ok (if (length pos <? length t)%nat then 0%R else sqrt (Qc2R (det (length vs) (gram vs)))).

Open Scope R_scope.
Definition rsum (l : list R) : R := fold_right Rplus 0 l.
(** [np.average(l)], [np.var(l)] for a non-empty list *)
Definition avg (l : list R) : R := rsum l / INR (length l).
Definition var (l : list R) : R := avg (map (fun x => (x - avg l) * (x - avg l)) l).
(** [x > y] *)
Definition rgt (x y : R) : bool := if Rlt_dec y x then true else false.
(** [np.average(l) > limit]; the average of an empty list is NaN *)
Definition avg_gt (l : list R) (limit : R) : bool :=
  match l with [] => false | _ => rgt (avg l) limit end.

(** _dimension.py:163-177: the loop over the tuples; also returns the tuples whose
    volume was calculated *)
Fixpoint evaluate_tuples (cs : coordsys) (pos : point) (min_eval : nat) (limit : R) (seen : list tuple) (results : list R)
    (ts : list tuple) (ends : bool) : res (bool * list tuple) :=
  match ts with
  | [] => if ends then Ok (avg_gt results limit, seen) else Err OutOfFuel
  | t :: ts' =>
    let i := length results in
    if (min_eval <=? i)%nat && (1 <? i)%nat && rgt (Rabs (limit - avg results) / 2) (sqrt (var results / INR (i - 1)))
    then Ok (avg_gt results limit, seen)
    else let! v := get_volume cs pos t in
         evaluate_tuples cs pos min_eval limit (seen ++ [t]) (results ++ [v]) ts' ends
  end.

(** _dimension.py:19 [EXACT_VALUES] *)
Definition exact_value (dim : nat) : option R :=
  match dim with
  | 1%nat => Some (1 / 2)
  | 2%nat => Some (8 / (9 * PI))
  | 3%nat => Some (27 * PI / 512)
  | _ => None
  end.

(** _dimension.py:112-177 [_has_dimension], with the tuples evaluated *)
Definition has_dimension {W} (r : rng) (cs : coordsys) (g : graph point W) (fs : R) (pos : point) (dim : nat) (min_eval : option nat) : res (bool * list tuple) :=
  if (length pos <? dim)%nat then Ok (false, [])
  else
    let neighbours := neighbors g pos in
    let m := match min_eval with None => length neighbours | Some m => m end in
    match exact_value dim with
    | None => Err NotImplementedError
    | Some e =>
      let limit := fs ^ dim * e / 2 in
      let (ts, ends) := draw_neighbour_tuple r neighbours dim m in
      evaluate_tuples cs pos m limit [] [] ts ends
    end.

(** _dimension.py:92-109 [_get_dimension]: [n] more dimensions to try, starting with [dim];
    [rs dim] is the random generator during the call with [dim] *)
Fixpoint get_dimension_from {W} (rs : nat -> rng) (cs : coordsys) (g : graph point W) (fs : R) (pos : point) (min_eval : option nat) (n dim : nat) : res nat :=
  match n with
  | O => Ok (dim - 1)%nat
  | S n' =>
    let! (b, _) := has_dimension (rs dim) cs g fs pos dim min_eval in
    if b then get_dimension_from rs cs g fs pos min_eval n' (S dim) else Ok (dim - 1)%nat
  end.
Definition get_dimension {W} (rs : nat -> rng) (cs : coordsys) (g : graph point W) (fs : R) (pos : point) (max_dim : nat) (min_eval : option nat) : res nat :=
  get_dimension_from rs cs g fs pos min_eval max_dim 1.

(** [collections.Counter]: keys in order of insertion *)
Definition counter := list (nat * nat).
Fixpoint counter_add (d : nat) (c : counter) : counter :=
  match c with
  | [] => [(d, 1%nat)]
  | (k, n) :: c' => if Nat.eqb k d then (k, S n) :: c' else (k, n) :: counter_add d c'
  end.
(** [counter.most_common(1)]: the first key with the largest count *)
Fixpoint most_common (c : counter) : option (nat * nat) :=
  match c with
  | [] => None
  | kn :: c' => match most_common c' with
                | None => Some kn
                | Some kn' => if (snd kn <? snd kn')%nat then Some kn' else Some kn
                end
  end.
(** _dimension.py:80-89 [_check_count]; [count >= (2 / 3) * n] is taken exactly (see
    C54_two_thirds for the rounded comparison) *)
Definition check_count (c : counter) : res (bool * nat) :=
  match most_common c with
  | None => Err IndexError
  | Some (d, n) => Ok ((2 * list_sum (map snd c) <=? 3 * n)%nat, d)
  end.

(** _dimension.py:57-77: the loop over the positions, for given local dimensions *)
Fixpoint count_dimensions (local : point -> res nat) (min_pos : option nat) (i : nat) (c : counter) (ps : list point) : res (option nat) :=
  match ps with
  | [] => let! (finished, d) := check_count c in Ok (if finished then Some d else None)
  | p :: ps' =>
    match min_pos with
    | None => Err TypeError
    | Some m =>
      let! (finished, d) := (if (m <=? i)%nat then check_count c else Ok (false, 0%nat)) in
      if finished then Ok (Some d)
      else let! d := local p in count_dimensions local min_pos (S i) (counter_add d c) ps'
    end
  end.

(** _dimension.py:22-77 [calculate_dimension]: [order] is [random.shuffle], [rs p d] the
    random generator during [_has_dimension] for position [p] and dimension [d] *)
Definition calculate_dimension {W} (order : list point -> list point) (rs : point -> nat -> rng) (cs : coordsys) (g : graph point W) (fs : R)
    (max_dim : nat) (min_pos min_eval : option nat) : res (option nat) :=
  let ps := match min_pos with None => g_nodes g | Some _ => order (g_nodes g) end in
  count_dimensions (fun p => get_dimension (rs p) cs g fs p max_dim min_eval) min_pos 0 [] ps.
