(** Model, in IEEE double precision, of the search loop: nodefinder/search/_controller.py:188-305
    (Controller.v is the same in exact arithmetic, with the save file, which is left out here).
    Results of minimizations are those of FloatMin.v (of a two-step minimization the parts the
    container reads: position, value, success). *)
From Verif Require Import Base CoordSys CellList Queue.
From Coq Require Import ZArith.
From Flocq Require Import Core BinarySingleNaN.
From Verif Require Import Float FloatVector NelderMead FloatMin FloatCell FloatCheck.
Open Scope list_scope.

(** ** Equality of doubles
    Python compares 0.0 and -0.0 as equal; to have one representative the queues below drop the
    sign of a zero ([drop_sign]).  (Simplification: the program keeps it.) *)
Definition double_eqb (x y : double) : bool :=
  match x, y with
  | B754_zero s, B754_zero t | B754_infinity s, B754_infinity t => Bool.eqb s t
  | B754_nan, B754_nan => true
  | B754_finite s m e _, B754_finite t n f _ => Bool.eqb s t && Pos.eqb m n && Z.eqb e f
  | _, _ => false
  end.
Lemma double_eqb_true x y : double_eqb x y = true -> x = y.
Proof. destruct x as [s|s| |s m e H], y as [t|t| |t n f H']; cbn; try discriminate; auto.
  - intros E. apply eqb_prop in E. congruence.
  - intros E. apply eqb_prop in E. congruence.
  - intros E. apply andb_true_iff in E as (E & E3). apply andb_true_iff in E as (E1 & E2). apply eqb_prop in E1. apply Pos.eqb_eq in E2. apply Z.eqb_eq in E3. subst. f_equal. apply eqbool_irrelevance. Qed.
Lemma double_eqb_refl x : double_eqb x x = true.
Proof. destruct x as [s|s| |s m e H]; cbn; auto; try apply eqb_reflx. rewrite eqb_reflx, Pos.eqb_refl, Z.eqb_refl. reflexivity. Qed.
#[global] Instance EqDec_double : EqDec double.
Proof. intros x y. destruct (double_eqb x y) eqn:E; [left; apply double_eqb_true; exact E|right; intros ->; rewrite double_eqb_refl in E; discriminate]. Defined.
Definition drop_sign (x : double) : double := if Beqb x (B754_zero false) then B754_zero false else x.

(** ** Queues *)
Notation fsimplex := (list fpoint).
(** _queue.py:137-142 [SimplexQueue.normalize], one simplex *)
Definition norm_fsimplex (s : fsimplex) : fsimplex := sort_by (lex_leb flt) (map (map drop_sign) s).
(** _queue.py:151-153 [PositionQueue.normalize], one position *)
Definition norm_fpos (p : fpoint) : fpoint := map drop_sign p.

(** _controller.py:39-110: the attributes used below; [fg_stencil] is already multiplied by the
    cutoff *)
Record fconfig := mk_fconfig {
  fg_per : bool;
  fg_boxes : list fbox;
  fg_gap : double;
  fg_cutoff : double;
  fg_stencil : option (list fsimplex);
  fg_parallel : nat;
  fg_recheck : bool;
  fg_count_cutoff : nat;
  fg_simplex_cutoff : nat
}.
(** _controller_state.py *)
Record fstate := mk_fstate { fs_result : fcontainer; fs_simplex : queue fsimplex; fs_position : queue fpoint }.
Definition with_fresult (s : fstate) (c : fcontainer) : fstate := mk_fstate c (fs_simplex s) (fs_position s).
Definition with_fsimplex (s : fstate) (q : queue fsimplex) : fstate := mk_fstate (fs_result s) q (fs_position s).
Definition with_fposition (s : fstate) (q : queue fpoint) : fstate := mk_fstate (fs_result s) (fs_simplex s) q.
(** _controller.py:29, 73 [feature_size / _DIST_CUTOFF_FACTOR] *)
Definition fdist_cutoff (feature_size : double) : double := fdiv feature_size (of_int 3).
(** _controller.py:96 [refinement_stencil * self.dist_cutoff] *)
Definition fscale_stencil (cutoff : double) (st : list fsimplex) : list fsimplex := map (map (map (fun x => fmul x cutoff))) st.
(** _controller.py:213 [pos + self.refinement_stencil] *)
Definition ftranslate (pos : fpoint) (st : list fsimplex) : list fsimplex := map (map (map2 fadd pos)) st.

(** ** The search loop *)
Inductive ftstatus := FPending | FCompleted | FFailed (e : exn).
Record ftask := mk_ftask { ft_simplex : fsimplex; ft_status : ftstatus }.
Inductive fphase := FRunning | FDraining | FReturned | FRaised (e : exn).
(** what the search has done so far, in order; not read by the program *)
Inductive faction :=
| FStart (s : fsimplex)
| FDiscard (s : fsimplex)
| FRecord (s : fsimplex) (r : dmin_result)
| FRefine (p : fpoint)
| FSkip (p : fpoint)
| FQueue (p : fpoint).
Record fctrl := mk_fctrl { fk_state : fstate; fk_tasks : list ftask; fk_phase : fphase; fk_log : list faction }.

(** _controller.py:204-222; [ps] is the list of queued positions, used as recursion bound *)
Fixpoint frefine_loop (g : fconfig) (ps : list fpoint) (s : fstate) (log : list faction) : fstate * list faction * option exn :=
  if has_queued (fs_simplex s) then (s, log, None)
  else match ps with
  | [] => (s, log, None)
  | _ :: ps' =>
    match pop_object (fs_position s) with
    | Err e => (s, log, Some e)
    | Ok (pq, pos) =>
      let s := with_fposition s pq in
      match (if fg_recheck g then fcheck_pos_refinement (fs_result s) (fg_cutoff g) (fg_count_cutoff g) pos else Ok true) with
      | Err e => (s, log, Some e)
      | Ok true =>
        match fg_stencil g with
        | None => (s, log, Some TypeError)
        | Some st =>
          let s := with_fsimplex s (add_objects norm_fsimplex (fs_simplex s) (ftranslate pos st)) in
          match fset_refined (fs_result s) pos with
          | Err e => (s, log, Some e)
          | Ok c => frefine_loop g ps' (with_fresult s c) (log ++ [FRefine pos])
          end
        end
      | Ok false => frefine_loop g ps' s (log ++ [FSkip pos])
      end
    end
  end.

(** _controller.py:200-230 *)
Fixpoint ffill (fuel : nat) (g : fconfig) (s : fstate) (tasks : list ftask) (log : list faction)
    : fstate * list ftask * list faction * option exn :=
  if (num_running (fs_simplex s) <? fg_parallel g)%nat then
    match fuel with
    | O => (s, tasks, log, Some OutOfFuel)
    | S fuel' =>
      let '(s, log, e) := frefine_loop g (q_queued (fs_position s)) s log in
      match e with
      | Some e => (s, tasks, log, Some e)
      | None =>
        if has_queued (fs_simplex s) then
          match pop_running (fs_simplex s) with
          | Err e => (s, tasks, log, Some e)
          | Ok (q, sx) =>
            let s := with_fsimplex s q in
            match fcheck_simplex (fs_result s) (fg_cutoff g) (fg_simplex_cutoff g) sx with
            | Err e => (s, tasks, log, Some e)
            | Ok true => ffill fuel' g s (tasks ++ [mk_ftask sx FPending]) (log ++ [FStart sx])
            | Ok false =>
              match set_finished (fs_simplex s) sx with
              | Err e => (s, tasks, log, Some e)
              | Ok q => ffill fuel' g (with_fsimplex s q) tasks (log ++ [FDiscard sx])
              end
            end
          end
        else (s, tasks, log, None)
      end
    end
  else (s, tasks, log, None).
Definition fstencil_size (g : fconfig) : nat := match fg_stencil g with Some st => length st | None => 0 end.
Definition ffill_fuel (g : fconfig) (s : fstate) : nat :=
  S (length (q_queued (fs_simplex s)) + length (q_queued (fs_position s)) * fstencil_size g).

(** _controller.py:196-198 *)
Definition floop_condition (s : fstate) : bool := negb (finished (fun l => l) (fs_simplex s)) || has_queued (fs_position s).
(** _controller.py:236-240 *)
Definition fexceptions (tasks : list ftask) : list exn := flat_map (fun t => match ft_status t with FFailed e => [e] | _ => [] end) tasks.
(** _controller.py:242: the tasks that are not done *)
Definition fpending (tasks : list ftask) : list ftask := filter (fun t => match ft_status t with FPending => true | _ => false end) tasks.
(** [exceptions[0]], where the set of futures is enumerated in some order *)
Definition fsome_exception (pick : nat) (es : list exn) : option exn :=
  match es with [] => None | e :: _ => Some (nth (pick mod length es) es e) end.
(** _controller.py:196-242: from after one [await asyncio.sleep(0.)] (or the start) to the next
    (or the end of the loop) *)
Definition fturn (g : fconfig) (k : fctrl) (pick : nat) : fctrl :=
  match fsome_exception pick (fexceptions (fk_tasks k)) with
  | Some e => mk_fctrl (fk_state k) (fk_tasks k) (FRaised e) (fk_log k)
  | None =>
    let tasks := fpending (fk_tasks k) in
    if floop_condition (fk_state k) then
      let '(s, tasks, log, e) := ffill (ffill_fuel g (fk_state k)) g (fk_state k) tasks (fk_log k) in
      mk_fctrl s tasks (match e with Some e => FRaised e | None => FRunning end) log
    else mk_fctrl (fk_state k) tasks FDraining (fk_log k)
  end.

(** _controller.py:264-274 [process_result]; [result.pos] was replaced by the normalised position
    in [add_result] *)
Definition fprocess_result (g : fconfig) (s : fstate) (log : list faction) (sx : fsimplex) (r : dmin_result) : fstate * list faction * option exn :=
  match fadd_result (fs_result s) r with
  | Err e => (s, log, Some e)
  | Ok (c, is_node) =>
    let s := with_fresult s c in
    let log := log ++ [FRecord sx r] in
    let pos := map2 (fnormalize1 (fc_per c)) (fc_boxes c) (dr_pos r) in
    if (is_node && match fg_stencil g with Some _ => true | None => false end)%bool then
      match fcheck_pos_refinement (fs_result s) (fg_cutoff g) 0 pos with
      | Err e => (s, log, Some e)
      | Ok true => (with_fposition s (add_objects norm_fpos (fs_position s) [pos]), log ++ [FQueue (norm_fpos pos)], None)
      | Ok false => (s, log, None)
      end
    else (s, log, None)
  end.
Fixpoint fset_status (i : nat) (st : ftstatus) (tasks : list ftask) : list ftask :=
  match tasks, i with
  | [], _ => []
  | t :: ts, O => mk_ftask (ft_simplex t) st :: ts
  | t :: ts, S i' => t :: fset_status i' st ts
  end.
(** _controller.py:251-262 [run_simplex] after the minimization has ended *)
Definition ffinish_task (g : fconfig) (k : fctrl) (i : nat) (sx : fsimplex) (r : dmin_result) : fctrl :=
  let '(s, log, e) := fprocess_result g (fk_state k) (fk_log k) sx r in
  match e with
  | Some e => mk_fctrl s (fset_status i (FFailed e) (fk_tasks k)) (fk_phase k) log
  | None =>
    match set_finished (fs_simplex s) sx with
    | Err e => mk_fctrl s (fset_status i (FFailed e) (fk_tasks k)) (fk_phase k) log
    | Ok q => mk_fctrl (with_fsimplex s q) (fset_status i FCompleted (fk_tasks k)) (fk_phase k) log
    end
  end.

(** Events: as in Controller.v; [FIdle] stands for everything that does not change the state
    modelled here (a save, other tasks). *)
Inductive fevent := FTurn (pick : nat) | FDone (i : nat) (r : dmin_result) | FFail (i : nat) (e : exn) | FIdle | FGather (pick : nat).
Definition fstep (g : fconfig) (k : fctrl) (ev : fevent) : option fctrl :=
  match ev with
  | FTurn pick => match fk_phase k with FRunning => Some (fturn g k pick) | _ => None end
  | FDone i r =>
    match nth_error (fk_tasks k) i with
    | Some (mk_ftask sx FPending) => Some (ffinish_task g k i sx r)
    | _ => None
    end
  | FFail i e =>
    match nth_error (fk_tasks k) i with
    | Some (mk_ftask sx FPending) => Some (mk_fctrl (fk_state k) (fset_status i (FFailed e) (fk_tasks k)) (fk_phase k) (fk_log k))
    | _ => None
    end
  | FIdle => Some k
  (** _controller.py:243 *)
  | FGather pick =>
    match fk_phase k, fpending (fk_tasks k) with
    | FDraining, [] =>
      Some (mk_fctrl (fk_state k) (fk_tasks k)
              (match fsome_exception pick (fexceptions (fk_tasks k)) with Some e => FRaised e | None => FReturned end) (fk_log k))
    | _, _ => None
    end
  end.
Fixpoint frun_events (g : fconfig) (k : fctrl) (evs : list fevent) : option fctrl :=
  match evs with
  | [] => Some k
  | ev :: evs' => match fstep g k ev with Some k' => frun_events g k' evs' | None => None end
  end.
Definition fstart (s : fstate) : fctrl := mk_fctrl s [] FRunning [].

(** _search_result_container.py:122-128 *)
Definition fmin_results (c : fcontainer) : list dmin_result := cl_flat (fc_nodes c) ++ fc_rejected c.
(** _controller.py:128-179 [create_state]: from a given (or loaded) state, or fresh; [mesh] are
    the simplices returned by [get_initial_simplices], [order] enumerates a set *)
Definition fcreate_state (per : bool) (boxes : list fbox) (gap cutoff : double) (order : list fsimplex -> list fsimplex)
    (initial : option fstate) (mesh : list fsimplex) (force_initial_mesh : bool) : res fstate :=
  match initial with
  | Some s0 =>
    let! c := fcontainer_new per boxes gap cutoff (fmin_results (fs_result s0)) (cl_flat (fc_refined (fs_result s0))) in
    let sq := queue_new norm_fsimplex (objects order (fs_simplex s0)) in
    let pq := queue_new norm_fpos (objects (fun l => l) (fs_position s0)) in
    Ok (mk_fstate c (if force_initial_mesh then add_objects norm_fsimplex sq mesh else sq) pq)
  | None =>
    let! c := fcontainer_new per boxes gap cutoff [] [] in
    Ok (mk_fstate c (queue_new norm_fsimplex mesh) (queue_new norm_fpos []))
  end.
