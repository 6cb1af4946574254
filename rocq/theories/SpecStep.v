(** What a Nelder-Mead iteration is (C70): Nelder and Mead, A simplex method for function
    minimization, 1965, with reflection 1, expansion 2, contraction 1/2 and shrinkage 1/2.
    Points and values are abstract here: exact rationals in SpecStep below, doubles in
    SpecFloatStep. *)
From Coq Require Import List Permutation Sorted.
From Verif Require Import Base CoordSys Values NelderMead SpecMin.
Import ListNotations.
Open Scope list_scope.

(** The candidates lie on the line from the worst vertex [w] through the centroid [c] of the
    other vertices, at [c + t (c - w)]. *)
Inductive candidate := Reflection | Expansion | Outside | Inside.

Section Step.
  Context {P V : Type}.
  (** comparison of values; order of the vertices *)
  Variables (lt le : V -> V -> Prop) (ordered : V -> V -> Prop).
  (** [on_line k others worst y]: [y] is the candidate [k] for the given vertices *)
  Variable on_line : candidate -> list P -> P -> P -> Prop.
  (** [y] is halfway between [x0] and [x] *)
  Variable halfway : P -> P -> P -> Prop.

  (** [nm_step vertices evaluations vertices']: from the vertices with their values (in
      increasing order of the values) one iteration makes the given evaluations in the given order,
      and ends with the given vertices (not yet reordered). *)
  Inductive nm_step : list (P * V) -> list (P * V) -> list (P * V) -> Prop :=
  | step_expand best others worst r e :
      on_line Reflection (map fst (best :: others)) (fst worst) (fst r) ->
      on_line Expansion (map fst (best :: others)) (fst worst) (fst e) ->
      lt (snd r) (snd best) -> lt (snd e) (snd r) ->
      nm_step ((best :: others) ++ [worst]) [r; e] ((best :: others) ++ [e])
  | step_expand_rejected best others worst r e :
      on_line Reflection (map fst (best :: others)) (fst worst) (fst r) ->
      on_line Expansion (map fst (best :: others)) (fst worst) (fst e) ->
      lt (snd r) (snd best) -> ~ lt (snd e) (snd r) ->
      nm_step ((best :: others) ++ [worst]) [r; e] ((best :: others) ++ [r])
  | step_reflect best others front second worst r :
      best :: others = front ++ [second] ->
      on_line Reflection (map fst (best :: others)) (fst worst) (fst r) ->
      ~ lt (snd r) (snd best) -> lt (snd r) (snd second) ->
      nm_step ((best :: others) ++ [worst]) [r] ((best :: others) ++ [r])
  | step_outside best others front second worst r c :
      best :: others = front ++ [second] ->
      on_line Reflection (map fst (best :: others)) (fst worst) (fst r) ->
      on_line Outside (map fst (best :: others)) (fst worst) (fst c) ->
      ~ lt (snd r) (snd best) -> ~ lt (snd r) (snd second) -> lt (snd r) (snd worst) -> le (snd c) (snd r) ->
      nm_step ((best :: others) ++ [worst]) [r; c] ((best :: others) ++ [c])
  | step_inside best others front second worst r c :
      best :: others = front ++ [second] ->
      on_line Reflection (map fst (best :: others)) (fst worst) (fst r) ->
      on_line Inside (map fst (best :: others)) (fst worst) (fst c) ->
      ~ lt (snd r) (snd best) -> ~ lt (snd r) (snd second) -> ~ lt (snd r) (snd worst) -> lt (snd c) (snd worst) ->
      nm_step ((best :: others) ++ [worst]) [r; c] ((best :: others) ++ [c])
  | step_shrink best others front second worst r c shrunk :
      best :: others = front ++ [second] ->
      on_line Reflection (map fst (best :: others)) (fst worst) (fst r) ->
      ~ lt (snd r) (snd best) -> ~ lt (snd r) (snd second) ->
      (lt (snd r) (snd worst) /\ on_line Outside (map fst (best :: others)) (fst worst) (fst c) /\ ~ le (snd c) (snd r) \/
       ~ lt (snd r) (snd worst) /\ on_line Inside (map fst (best :: others)) (fst worst) (fst c) /\ ~ lt (snd c) (snd worst)) ->
      Forall2 (fun x y => halfway (fst best) (fst x) (fst y)) (others ++ [worst]) shrunk ->
      nm_step ((best :: others) ++ [worst]) (r :: c :: shrunk) (best :: shrunk).

  (** [nm_chain goes_on a k i evaluations history]: the iterations starting from the vertices [a],
      after [k] evaluations and [i] iterations (the first one is the set-up): the evaluations each of
      them makes, and the vertices after each of them, in order of the values; an iteration
      is only started if [goes_on]. *)
  Variable goes_on : list (P * V) -> nat -> nat -> Prop.
  Inductive nm_chain : list (P * V) -> nat -> nat -> list (list (P * V)) -> list (list (P * V)) -> Prop :=
  | chain_end a k i : nm_chain a k i [] []
  | chain_step a k i e c b es bs :
      goes_on a k i -> nm_step a e c -> Permutation c b -> Sorted (fun x y => ordered (snd x) (snd y)) b ->
      nm_chain b (k + length e) (S i) es bs -> nm_chain a k i (e :: es) (b :: bs).
End Step.

Open Scope Qc_scope.
(** the parameter [t] *)
Definition factor (k : candidate) : Qc :=
  match k with Reflection => 1 | Expansion => qc 2 | Outside => half | Inside => - half end.
(** coordinate [j] of [y] is that of [c + t (c - w)], where [c] is the centroid of the other
    vertices: n y = (1 + t) (x_1 + ... + x_n) - n t w *)
Definition on_line (k : candidate) (others : list point) (worst y : point) : Prop :=
  length y = length worst /\
  forall j, (j < length y)%nat ->
    qc (Z.of_nat (length others)) * nth j y 0 =
      (1 + factor k) * qsum (map (fun x => nth j x 0) others) - qc (Z.of_nat (length others)) * factor k * nth j worst 0.
Definition halfway (x0 x y : point) : Prop :=
  length y = length x0 /\ forall j, (j < length y)%nat -> nth j y 0 + nth j y 0 = nth j x0 0 + nth j x 0.

(** when the minimization continues: the budgets are not used up, the derivative estimate is
    not above the cutoff, and the tolerances are not met *)
Definition continues (p : nm_params) (maxfev maxiter : nat) (a : list (point * fval)) (k i : nat) : Prop :=
  (k < maxfev)%nat /\ (i < maxiter)%nat /\
  (exists best, hd_error (map snd a) = Some best /\ fprime_exceeded (p_fprime p) (map fst a) best = Ok false) /\
  ~ tolerances_met (p_xtol p) (p_ftol p) (map fst a) (map snd a).
