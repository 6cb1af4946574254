(** Model of nodefinder/search/_minimization/_nelder_mead.py and
    nodefinder/search/_minimization/_run.py.

    Coordinates are exact rationals; function values are [fval] (with NaN and
    infinities).  The awaited potential is an arbitrary oracle
    [func : nat -> point -> res fval]: the answer may depend on the index of the
    call (so it may be stateful or change while other tasks run) and may be an
    exception.  Every answer is recorded in a log, which is the observable
    trace of evaluations and is not read by the algorithm. *)
From Verif Require Import Base CoordSys Values.
Open Scope Qc_scope.

(** ** NumPy reductions on values *)

(** the order used by [np.argsort]: NaN is sorted to the end *)
Definition nle (x y : fval) : bool := match y with NaN => true | _ => fle x y end.

(** [np.min] / [np.max] of a non-empty array: NaN is propagated *)
Definition fmin2 (x y : fval) : fval :=
  match x, y with NaN, _ | _, NaN => NaN | _, _ => if flt y x then y else x end.
Definition fmax2 (x y : fval) : fval :=
  match x, y with NaN, _ | _, NaN => NaN | _, _ => if flt x y then y else x end.
Definition np_min (l : list fval) : fval :=
  match l with [] => NaN | x :: l' => fold_left fmin2 l' x end.
Definition np_max (l : list fval) : fval :=
  match l with [] => NaN | x :: l' => fold_left fmax2 l' x end.
Definition np_max_q (l : list Qc) : Qc :=
  match l with [] => 0 | x :: l' => fold_left qmax l' x end.

(** ** Vectors *)
Definition vscale (c : Qc) (v : point) : point := map (Qcmult c) v.

(** _nelder_mead.py:147 [np.add.reduce(sim[:-1], 0) / N] *)
Definition centroid (n : nat) (ps : list point) : point :=
  map (fun x => x / qc (Z.of_nat n)) (vsum n ps).

(** _nelder_mead.py:107-110 *)
Definition rho : Qc := 1.
Definition chi : Qc := qc 2.
Definition psi : Qc := half.
Definition sigma : Qc := half.

(** ** Parameters (keyword arguments, _nelder_mead.py:55-65).  Integer limits
    are natural numbers (a negative limit behaves like 0). *)
Record nm_params := mk_nm_params {
  p_xtol : Qc;
  p_ftol : fval;
  p_maxiter : option nat;
  p_maxfev : option nat;
  p_fprime : option Qc;
  p_keep : bool
}.

(** evaluations made so far: the counter of [wrap_function] (lines 44-51) and
    the log *)
Record world := mk_world { w_calls : nat; w_log : list (point * fval) }.

(** ** Stopping criteria *)

(** [itertools.combinations(l, r=2)] *)
Fixpoint pairs {A} (l : list A) : list (A * A) :=
  match l with
  | [] => []
  | x :: l' => map (fun y => (x, y)) l' ++ pairs l'
  end.

(** squared length of [p2 - p1] *)
Definition edge_sq (pq : point * point) : Qc :=
  qsum (map (fun d => d * d) (vsub (snd pq) (fst pq))).

(** [f / sqrt(m) > c], decided exactly for [m >= 0]; [m = 0] is a floating-point
    division by zero (inf, -inf or NaN) *)
Definition quot_gt (f : fval) (m c : Qc) : bool :=
  match f with
  | NaN | NInf => false
  | PInf => true
  | Fin a =>
    if eqb m 0 then ltb 0 a
    else if ltb c 0 then leb 0 a || ltb (a * a) (c * c * m)
    else ltb 0 a && ltb (c * c * m) (a * a)
  end.

(** _nelder_mead.py:132-135, 213-216 and 242-252: the derivative cutoff is set
    and the estimate exceeds it.  The maximum over an empty set of edges (a
    single vertex) raises ValueError. *)
Definition fprime_exceeded (cutoff : option Qc) (sim : list point) (fval : fval) : res bool :=
  match cutoff with
  | None => Ok false
  | Some c =>
    match pairs sim with
    | [] => Err ValueError
    | es => Ok (quot_gt fval (np_max_q (map edge_sq es)) c)
    end
  end.

(** _nelder_mead.py:141-144; [np.max] of an empty array raises ValueError *)
Definition converged (p : nm_params) (sim : list point) (fsim : list fval) : res bool :=
  match tl sim with
  | [] => Err ValueError
  | rest =>
    Ok (leb (np_max_q (map qabs (concat (map (fun x => vsub x (hd [] sim)) rest)))) (p_xtol p)
        && fle (np_max (map (fabsdiff (hd NaN fsim)) (tl fsim))) (p_ftol p))
  end.

Section Run.
  Variable argsort : list fval -> list nat.     (* np.argsort *)
  Variable func : nat -> point -> res fval.

  (** _nelder_mead.py:44-51 [wrap_function] *)
  Definition call (w : world) (x : point) : res (world * fval) :=
    let! v := func (w_calls w) x in
    Ok ({| w_calls := S (w_calls w); w_log := w_log w ++ [(x, v)] |}, v).

  (** _nelder_mead.py:116: the initial evaluations ([asyncio.gather] starts the
      calls in order) *)
  Fixpoint call_all (w : world) (xs : list point) : res (world * list fval) :=
    match xs with
    | [] => Ok (w, [])
    | x :: xs' =>
      let! wv := call w x in
      let! wvs := call_all (fst wv) xs' in
      Ok (fst wvs, snd wv :: snd wvs)
    end.

  (** [a[-1] = x] *)
  Definition set_last {A} (l : list A) (x : A) : list A := removelast l ++ [x].

  (** _nelder_mead.py:188-191, the loop over [sim[1:]]; [sim[0]] is not changed
      by the loop *)
  Fixpoint shrink_loop (x0 : point) (w : world) (xs : list point) : res (world * list point * list fval) :=
    match xs with
    | [] => Ok (w, [], [])
    | x :: xs' =>
      let y := vadd x0 (vscale sigma (vsub x x0)) in
      let! wv := call w y in
      let! r := shrink_loop x0 (fst wv) xs' in
      let '(w', ys, vs) := r in
      Ok (w', y :: ys, snd wv :: vs)
    end.

  (** _nelder_mead.py:147-191: one iteration before sorting *)
  Definition nm_move (n : nat) (sim : list point) (fsim : list fval) (w : world)
      : res (list point * list fval * world) :=
    let xbar := centroid n (removelast sim) in
    let worst := last sim [] in
    let fworst := last fsim NaN in
    let xr := vsub (vscale (1 + rho) xbar) (vscale rho worst) in
    let! (w, fxr) := call w xr in
    if flt fxr (hd NaN fsim) then
      let xe := vsub (vscale (1 + rho * chi) xbar) (vscale (rho * chi) worst) in
      let! (w, fxe) := call w xe in
      if flt fxe fxr then Ok (set_last sim xe, set_last fsim fxe, w)
      else Ok (set_last sim xr, set_last fsim fxr, w)
    else if flt fxr (last (removelast fsim) NaN) then
      Ok (set_last sim xr, set_last fsim fxr, w)
    else
      let! (sim1, fsim1, w, doshrink) :=
        if flt fxr fworst then
          let xc := vsub (vscale (1 + psi * rho) xbar) (vscale (psi * rho) worst) in
          let! (w, fxc) := call w xc in
          if fle fxc fxr then Ok (set_last sim xc, set_last fsim fxc, w, false)
          else Ok (sim, fsim, w, true)
        else
          let xcc := vadd (vscale (1 - psi) xbar) (vscale psi worst) in
          let! (w, fxcc) := call w xcc in
          if flt fxcc fworst then Ok (set_last sim xcc, set_last fsim fxcc, w, false)
          else Ok (sim, fsim, w, true)
      in
      if (doshrink : bool) then
        let! r := shrink_loop (hd [] sim1) w (tl sim1) in
        let '(w, ys, vs) := r in
        Ok (hd [] sim1 :: ys, hd NaN fsim1 :: vs, w)
      else Ok (sim1, fsim1, w).

  (** [np.take(a, ind, 0)] *)
  Definition take {A} (d : A) (l : list A) (ind : list nat) : list A := map (fun i => nth i l d) ind.

  (** _nelder_mead.py:119-122, 193-195 *)
  Definition sort_simplex (sim : list point) (fsim : list fval) : list point * list fval :=
    let ind := argsort fsim in (take [] sim ind, take NaN fsim ind).

  (** _nelder_mead.py:197-201: histories after one more iteration *)
  Definition extend_history {A} (keep : bool) (hist : list A) (x : A) : list A :=
    if keep then hist ++ [x] else [x].

  Record nm_state := mk_nm_state {
    s_sim : list point;
    s_fsim : list fval;
    s_world : world;
    s_iter : nat;
    s_hist : list (list point);
    s_fhist : list (list fval)     (* only used if the history is kept *)
  }.

  (** _nelder_mead.py:131-201: the main loop.  [fuel] bounds the number of
      iterations. *)
  Fixpoint nm_loop (fuel n maxfun maxiter : nat) (p : nm_params) (s : nm_state) : res nm_state :=
    if ((w_calls (s_world s) <? maxfun) && (s_iter s <? maxiter))%nat then
      match fuel with
      | O => Err OutOfFuel
      | S fuel' =>
        let! e := fprime_exceeded (p_fprime p) (s_sim s) (hd NaN (s_fsim s)) in
        if (e : bool) then Ok s else
        let! c := converged p (s_sim s) (s_fsim s) in
        if (c : bool) then Ok s else
        let! r := nm_move n (s_sim s) (s_fsim s) (s_world s) in
        let '(sim1, fsim1, w1) := r in
        let (sim2, fsim2) := sort_simplex sim1 fsim1 in
        nm_loop fuel' n maxfun maxiter p
          {| s_sim := sim2; s_fsim := fsim2; s_world := w1; s_iter := S (s_iter s);
             s_hist := extend_history (p_keep p) (s_hist s) sim2;
             s_fhist := extend_history (p_keep p) (s_fhist s) fsim2 |}
      end
    else Ok s.

  (** _nelder_mead.py:101-105: default limits *)
  Definition limit (o : option nat) (n : nat) : nat := match o with Some k => k | None => (n * 200)%nat end.

  (** _nelder_mead.py:207-220 [warnflag] *)
  Definition nm_status (p : nm_params) (maxfun maxiter : nat) (s : nm_state) (value : fval) : res Z :=
    if (maxfun <=? w_calls (s_world s))%nat then Ok 1%Z
    else if (maxiter <=? s_iter s)%nat then Ok 2%Z
    else
      let! e := fprime_exceeded (p_fprime p) (s_sim s) value in
      if (e : bool) then Ok 3%Z else Ok 0%Z.

  (** _nelder_mead.py:113-114: [sim.shape == (N + 1, N)]; ragged input (a
      ValueError in recent NumPy) is counted as a failed assertion *)
  Definition well_shaped (n : nat) (sim : list point) : bool :=
    (length sim =? S n)%nat && forallb (fun x => (length x =? n)%nat) sim.

  (** _nelder_mead.py:54-239 [root_nelder_mead]; returns the result and the
      evaluations made *)
  Definition root_nelder_mead (p : nm_params) (initial : list point) : res (min_result * world) :=
    match initial with
    | [] => Err IndexError
    | x0 :: _ =>
      let n := length x0 in
      let maxiter := limit (p_maxiter p) n in
      let maxfun := limit (p_maxfev p) n in
      if negb (well_shaped n initial) then Err AssertionError else
      let! wf := call_all {| w_calls := 0; w_log := [] |} initial in
      let (w, f0) := wf in
      let (sim, fsim) := sort_simplex initial f0 in
      let! s := nm_loop maxiter n maxfun maxiter p
        {| s_sim := sim; s_fsim := fsim; s_world := w; s_iter := 1;
           s_hist := [sim]; s_fhist := [fsim] |} in
      let value := np_min (s_fsim s) in
      let! status := nm_status p maxfun maxiter s value in
      Ok ({| r_pos := hd [] (s_sim s); r_value := value; r_success := (status =? 0)%Z;
             r_status := status; r_num_fev := w_calls (s_world s); r_num_iter := s_iter s;
             r_simplex_history := s_hist s;
             r_fun_history := if p_keep p then Some (s_fhist s) else None |}, s_world s)
    end.
End Run.

(** ** nodefinder/search/_minimization/_run.py *)

(** _minimization/_run.py:17-21 [add_fake_potential] *)
Definition add_fake_potential (fake func : nat -> point -> res fval) (k : nat) (x : point) : res fval :=
  let! v := func k x in
  let! u := fake k x in
  Ok (fadd v u).

(** _minimization/_run.py:58: [ftol] replaced by infinity *)
Definition with_ftol_inf (p : nm_params) : nm_params :=
  {| p_xtol := p_xtol p; p_ftol := PInf; p_maxiter := p_maxiter p; p_maxfev := p_maxfev p;
     p_fprime := p_fprime p; p_keep := p_keep p |}.

(** _minimization/_run.py:64-66 *)
Definition blow_up (sim : list point) : list point :=
  map (fun x => vadd (hd [] sim) (vscale (Q2Qc (3 # 2)) (vsub x (hd [] sim)))) sim.

(** The calls of a second run continue the numbering of the first. *)
Definition later (func : nat -> point -> res fval) (n : nat) (k : nat) (x : point) : res fval := func (n + k)%nat x.

(** _minimization/_run.py:24-76 [run_minimization]: the result, the evaluations of the first
    run (values include the fake term; [None] without a fake potential) and of
    the (last) run on the plain function. *)
Definition run_minimization (argsort : list fval -> list nat) (func : nat -> point -> res fval)
    (fake : option (nat -> point -> res fval)) (p : nm_params) (initial : list point)
    : res (result * option world * world) :=
  match fake with
  | Some fk =>
    let! r1 := root_nelder_mead argsort (add_fake_potential fk func) (with_ftol_inf p) initial in
    let (res_fake, w1) := r1 in
    match rev (r_simplex_history res_fake) with
    | [] => Err IndexError
    | simplex_final :: _ =>
      let! r2 := root_nelder_mead argsort (later func (w_calls w1)) p (blow_up simplex_final) in
      let (res, w2) := r2 in
      Ok (Joined res res_fake None, Some w1, w2)
    end
  | None =>
    let! r := root_nelder_mead argsort func p initial in
    Ok (Plain (fst r), None, snd r)
  end.
