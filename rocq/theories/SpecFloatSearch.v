(** Specification vocabulary for whole searches in double precision (C64). *)
From Coq Require Import ZArith Reals List.
From Flocq Require Import Core BinarySingleNaN.
From Verif Require Import Base CoordSys CellList Queue Float FloatVector NelderMead FloatMin FloatCell SpecFloatCell FloatCheck FloatController.
Import ListNotations.
Open Scope list_scope.

(** Projections of the list of actions of a search. *)
Definition fstarted (l : list faction) : list fsimplex := flat_map (fun a => match a with FStart s => [s] | _ => [] end) l.
Definition fdiscarded (l : list faction) : list fsimplex := flat_map (fun a => match a with FDiscard s => [s] | _ => [] end) l.
Definition frecorded (l : list faction) : list (fsimplex * dmin_result) := flat_map (fun a => match a with FRecord s r => [(s, r)] | _ => [] end) l.
Definition frefined (l : list faction) : list fpoint := flat_map (fun a => match a with FRefine p => [p] | _ => [] end) l.
Definition fskipped (l : list faction) : list fpoint := flat_map (fun a => match a with FSkip p => [p] | _ => [] end) l.
Definition fto_refine (l : list faction) : list fpoint := flat_map (fun a => match a with FQueue p => [p] | _ => [] end) l.

(** The simplices placed around the refined positions, as queued: every vertex of the stencil
    added to the position, the vertices sorted. *)
Definition frefinements (g : fconfig) (l : list faction) : list fsimplex :=
  match fg_stencil g with
  | Some st => flat_map (fun p => map norm_fsimplex (map (map (map2 fadd p)) st)) (frefined l)
  | None => []
  end.

(** A queue in which exactly the objects [l] (all different) wait and none is being processed. *)
Definition fwaiting {A} (q : queue A) (l : list A) : Prop :=
  q_queued q = l /\ q_running q = [] /\ NoDup l /\ (forall x, In x (q_all q) <-> In x l).

(** Simplices currently being minimized or whose minimization failed. *)
Definition fin_flight (k : fctrl) : list fsimplex :=
  map ft_simplex (filter (fun t => match ft_status t with FCompleted => false | _ => true end) (fk_tasks k)).
Definition frunning_now (k : fctrl) : nat := length (filter (fun t => match ft_status t with FPending => true | _ => false end) (fk_tasks k)).
(** Simplices whose minimization has not ended. *)
Definition funfinished (k : fctrl) : list fsimplex :=
  map ft_simplex (filter (fun t => match ft_status t with FPending => true | _ => false end) (fk_tasks k)).

(** A finite position within [2^n] box sizes of the lower limits. *)
Definition fwithin (n : Z) (boxes : list (double * double)) (p : list double) : Prop :=
  Forall2 (fun (b : double * double) (x : double) => is_finite x = true /\ (Rabs (B2R x - B2R (fst b)) <= bpow radix2 n * fbox_size b)%R) boxes p.
(** Positions that can be refined: inside the box if it is periodic. *)
Definition refinable (per : bool) (boxes : list (double * double)) (p : list double) : Prop :=
  if per then Forall2 in_box boxes p else fwithin 9 boxes p.

(** Events the environment can produce: minimizations that end do so at a finite position that
    is not more than 512 box sizes away. *)
Definition valid_fevent (boxes : list (double * double)) (ev : fevent) : Prop :=
  match ev with FDone _ r => fwithin 9 boxes (dr_pos r) | _ => True end.

(** The spacing of doubles that occur as coordinates of positions is well below this. *)
Definition resolution (b : double * double) : R := (bpow radix2 (-51) * (Rabs (B2R (fst b)) + bpow radix2 10 * fbox_size b))%R.
(** some coordinates differ by more than the resolution *)
Definition apart (boxes : list (double * double)) (v w : list double) : Prop :=
  exists i b x y, nth_error boxes i = Some b /\ nth_error v i = Some x /\ nth_error w i = Some y /\ (resolution b < Rabs (B2R x - B2R y))%R.
(** A stencil (already scaled) whose vertices are at most 256 box sizes from the origin and whose
    simplices can be told apart: of any two, one has a vertex that is away from every vertex of
    the other by more than the resolution in some coordinate. *)
Definition resolved_stencil (boxes : list (double * double)) (st : list fsimplex) : Prop :=
  Forall (fun b => (resolution b <= fbox_size b)%R) boxes /\
  Forall (Forall (Forall2 (fun b x => is_finite x = true /\ (Rabs (B2R x) <= bpow radix2 8 * fbox_size b)%R) boxes)) st /\
  (forall i j s t, i <> j -> nth_error st i = Some s -> nth_error st j = Some t ->
     exists v, (In v s /\ forall w, In w t -> apart boxes v w) \/ (In v t /\ forall w, In w s -> apart boxes v w)).

(** A search that can be started: boxes and cutoff for which lookups are reliable (C62), and a
    stencil (or none) whose simplices stay different and in reach when it is moved to any
    position: [C64_stencil_moved] shows this for every [resolved_stencil]. *)
Record good_fconfig (g : fconfig) : Prop := {
  gf_boxes : Forall good_box (fg_boxes g);
  gf_dim : (length (fg_boxes g) <= 64)%nat;
  gf_cutoff : good_cutoff (fg_cutoff g);
  gf_fits : fg_per g = true \/ Forall (fun b => (B2R (fg_cutoff g) <= fbox_size b)%R) (fg_boxes g);
  gf_stencil : forall st p, fg_stencil g = Some st -> refinable (fg_per g) (fg_boxes g) p ->
    NoDup (map norm_fsimplex (ftranslate p st)) /\ Forall (Forall (good_position (fg_boxes g))) (ftranslate p st)
}.
(** and a state with results [rs], refined positions [ps], simplices [Q] and positions [P]
    waiting. *)
Record good_fstart (g : fconfig) (s : fstate) (rs : list dmin_result) (ps : list fpoint) (Q : list fsimplex) (P : list fpoint) : Prop := {
  gt_result : fhistory (fg_per g) (fg_boxes g) (fg_gap g) (fg_cutoff g) rs ps (fs_result s);
  gt_results : Forall (fun r => good_position (fg_boxes g) (dr_pos r)) rs;
  gt_refined : Forall (good_refined (fg_per g) (fg_boxes g)) ps;
  gt_simplex : fwaiting (fs_simplex s) Q;
  gt_position : fwaiting (fs_position s) P;
  gt_vertices : Forall (Forall (good_position (fg_boxes g))) Q;
  gt_positions : Forall (refinable (fg_per g) (fg_boxes g)) P;
  gt_stencil : fg_stencil g = None -> P = []
}.

(** [k] is reached from the start state by some possible events. *)
Definition freaches (g : fconfig) (s : fstate) (k : fctrl) : Prop :=
  exists evs, Forall (valid_fevent (fg_boxes g)) evs /\ frun_events g (fstart s) evs = Some k.

(** The search has ended, normally or with an exception. *)
Definition fover (k : fctrl) : Prop := fk_phase k = FReturned \/ exists e, fk_phase k = FRaised e.
(** An infinite schedule ([FIdle] is the idle event) in which every minimization ends, the
    scheduler always gets its turn, and the final [gather] is executed once it is reached. *)
Record ffair_run (g : fconfig) (s : fstate) (k : nat -> fctrl) (ev : nat -> fevent) : Prop := {
  ffr_start : k 0%nat = fstart s;
  ffr_step : forall i, valid_fevent (fg_boxes g) (ev i) /\ fstep g (k i) (ev i) = Some (k (S i));
  ffr_ends : forall i x, In x (funfinished (k i)) -> exists j, (i <= j)%nat /\ ~ In x (funfinished (k j));
  ffr_turn : forall i, fk_phase (k i) = FRunning -> exists j pick, (i <= j)%nat /\ (fk_phase (k j) = FRunning -> ev j = FTurn pick);
  ffr_gather : forall i, fk_phase (k i) = FDraining -> exists j pick, (i <= j)%nat /\ ev j = FGather pick
}.

(** Numbers depending only on the boxes and the cutoff: the number of cells when the region of
    the positions that can be refined (one and a half times each edge of a periodic box,
    otherwise 1024 times) is divided into pieces of length [cutoff / 16]. *)
Definition fcells (per : bool) (cutoff : double) (b : double * double) : nat :=
  Z.to_nat (1 + Zfloor ((if per then 24 else 16384) * fbox_size b / B2R cutoff)).
Definition fpacking_bound (per : bool) (boxes : list (double * double)) (cutoff : double) : nat :=
  fold_right Nat.mul 1%nat (map (fcells per cutoff) boxes).
