(** Specification vocabulary for complete searches in double precision whose results come from
    minimizations of an actual potential (C67). *)
From Coq Require Import ZArith Reals List.
From Flocq Require Import Core BinarySingleNaN.
From Verif Require Import Base CoordSys CellList Queue Float FloatVector NelderMead FloatMin SpecFloatMin FloatCell SpecFloatCell FloatCheck FloatController SpecFloatSearch.
Import ListNotations.
Open Scope list_scope.

(** [evals x v]: an evaluation of the potential at [x] can give [v]; [raises x e]: it can raise
    [e].  The outcome of a minimization started with the simplex [x], without or with the fake
    potential; the latter is evaluated against result containers of this search's geometry. *)
Definition fminimized (g : fconfig) (p : dparams) (evals : fpoint -> double -> Prop) (raises : fpoint -> exn -> Prop) (x : fsimplex) (o : res dmin_result) : Prop :=
  exists argsort np_dmin func, dargsort_ok argsort /\ dmin_ok np_dmin /\
    (forall k y v, func k y = Ok v -> evals y v) /\ (forall k y e, func k y = Err e -> raises y e) /\
    (match o with
     | Ok r => exists w, droot_nelder_mead argsort np_dmin func p x = Ok (r, w)
     | Err e => droot_nelder_mead argsort np_dmin func p x = Err e
     end \/
     exists fake, (forall k y, exists rs ps c, reliable (fg_per g) (fg_boxes g) (fg_gap g) (fg_cutoff g) rs ps c /\ fake k y = ffake_potential c (fg_cutoff g) y) /\
       match o with
       | Ok r => exists r1 w1 w, drun_two_step argsort np_dmin func fake p x = Ok ((r1, w1), (r, w))
       | Err e => drun_two_step argsort np_dmin func fake p x = Err e
       end).

(** Events: minimizations end with what minimizing the simplex gives; results are at most 512 box
    sizes away. *)
Definition fhonest_event (g : fconfig) (p : dparams) evals raises (k : fctrl) (ev : fevent) : Prop :=
  match ev with
  | FDone i r => fwithin 9 (fg_boxes g) (dr_pos r) /\ forall x, nth_error (fk_tasks k) i = Some (mk_ftask x FPending) -> fminimized g p evals raises x (Ok r)
  | FFail i e => forall x, nth_error (fk_tasks k) i = Some (mk_ftask x FPending) -> fminimized g p evals raises x (Err e)
  | _ => True
  end.
Inductive fsearch (g : fconfig) (p : dparams) (evals : fpoint -> double -> Prop) (raises : fpoint -> exn -> Prop) (s : fstate) : fctrl -> Prop :=
| fsearch_start : fsearch g p evals raises s (fstart s)
| fsearch_step k ev k' : fsearch g p evals raises s k -> fhonest_event g p evals raises k ev -> fstep g k ev = Some k' -> fsearch g p evals raises s k'.

(** All simplices are proper ([dim] + 1 points of dimension [dim >= 1]). *)
Definition fproper (g : fconfig) (Q : list fsimplex) : Prop :=
  Forall (is_dsimplex (length (fg_boxes g))) Q /\ forall st, fg_stencil g = Some st -> Forall (is_dsimplex (length (fg_boxes g))) st.

(** the error of normalising one coordinate *)
Definition norm_error (b : double * double) : R := (bpow radix2 (-40) * fbox_size b + bpow radix2 (-52) * Rabs (B2R (fst b)))%R.
(** [q] is [p] moved by multiples of the box sizes (computed by the program), up to the error *)
Definition image_of (boxes : list (double * double)) (p q : list double) : Prop :=
  length p = length boxes /\ length q = length boxes /\
  forall i b x y, nth_error boxes i = Some b -> nth_error p i = Some x -> nth_error q i = Some y ->
    exists j : Z, (Rabs (B2R y - (B2R x + IZR j * fbox_size b)) <= norm_error b)%R.

(** Functions of real coordinates: periodic in the boxes, and changing by at most [lip] times the
    sum of the changes of the coordinates. *)
Fixpoint shifted (boxes : list (double * double)) (x : list R) (js : list Z) : list R :=
  match boxes, x, js with
  | b :: boxes', a :: x', j :: js' => (a + IZR j * fbox_size b)%R :: shifted boxes' x' js'
  | _, _, _ => []
  end.
Definition box_periodic (boxes : list (double * double)) (F : list R -> R) : Prop :=
  forall x js, length x = length boxes -> length js = length boxes -> F (shifted boxes x js) = F x.
Fixpoint sum_changes (x y : list R) : R :=
  match x, y with a :: x', b :: y' => (Rabs (a - b) + sum_changes x' y')%R | _, _ => 0%R end.
Definition lipschitz (n : nat) (lip : R) (F : list R -> R) : Prop :=
  forall x y, length x = n -> length y = n -> (Rabs (F x - F y) <= lip * sum_changes x y)%R.
Definition total_norm_error (boxes : list (double * double)) : R := fold_right Rplus 0%R (map norm_error boxes).
