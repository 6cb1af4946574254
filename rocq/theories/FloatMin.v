(** Model, in IEEE double precision, of
    nodefinder/search/_minimization/_nelder_mead.py and
    nodefinder/search/_minimization/_run.py (NelderMead.v is the same in exact arithmetic).

    Coordinates and function values are doubles, including infinities and NaN.  As in
    NelderMead.v the potential is an arbitrary oracle [func : nat -> list double -> res double]
    (index of the call, position), and all evaluations are recorded in a log that the
    algorithm does not read. *)
From Verif Require Import Base NelderMead.
From Coq Require Import ZArith.
From Flocq Require Import Core BinarySingleNaN.
From Verif Require Import Float FloatVector.
Open Scope list_scope.

Notation fpoint := (list double).

(** Python [x <= y], [abs] *)
Definition dle : double -> double -> bool := Bleb.
Definition dabs : double -> double := Babs.
Definition nan : double := B754_nan.
(** the order used by [np.argsort]: NaN is sorted to the end *)
Definition dnle (x y : double) : bool := is_nan y || dle x y.
(** [np.max] of a non-empty array: NaN is propagated *)
Definition dmax2 (x y : double) : double := if is_nan x then x else if is_nan y then y else if flt x y then y else x.
Definition np_dmax (l : list double) : double := match l with [] => nan | x :: l' => fold_left dmax2 l' x end.

(** ** Vectors *)
Definition dvadd : fpoint -> fpoint -> fpoint := map2 fadd.
Definition dvsub : fpoint -> fpoint -> fpoint := map2 fsub.
Definition dvscale (c : double) (v : fpoint) : fpoint := map (fmul c) v.
(** _nelder_mead.py:147 [np.add.reduce(sim[:-1], 0) / N] *)
Definition dcentroid (n : nat) (ps : list fpoint) : fpoint :=
  match ps with [] => [] | p :: ps' => map (fun x => fdiv x (of_int (Z.of_nat n))) (fold_left dvadd ps' p) end.

(** _nelder_mead.py:107-110: rho = 1, chi = 2, psi = sigma = 0.5; the factors below are
    computed from them in Python ([1 + rho], [1 + rho * chi], ...), without rounding *)
Definition dhalf : double := of_dyadic 1 (-1).
Definition dthree_halves : double := of_dyadic 3 (-1).
Definition dtwo : double := of_int 2.
Definition dthree : double := of_int 3.

(** keyword arguments, _nelder_mead.py:55-65 *)
Record dparams := mk_dparams {
  dp_xtol : double;
  dp_ftol : double;
  dp_maxiter : option nat;
  dp_maxfev : option nat;
  dp_fprime : option double;
  dp_keep : bool
}.
Record dworld := mk_dworld { dw_calls : nat; dw_log : list (fpoint * double) }.
(** result/_minimization.py:74-98 *)
Record dmin_result := mk_dmin_result {
  dr_pos : fpoint;
  dr_value : double;
  dr_success : bool;
  dr_status : Z;
  dr_num_fev : nat;
  dr_num_iter : nat;
  dr_simplex_history : list (list fpoint);
  dr_fun_history : option (list (list double))
}.

(** _nelder_mead.py:242-252 [_get_fprime_estimate]; the squares are added from left to
    right (numpy may group long sums differently) *)
Definition edge_norm_sq (pq : fpoint * fpoint) : double :=
  fold_left fadd (map (fun d => fmul d d) (dvsub (snd pq) (fst pq))) (B754_zero false).
Definition fprime_estimate (sim : list fpoint) (v : double) : res double :=
  match NelderMead.pairs sim with
  | [] => Err ValueError
  | es => Ok (fdiv v (fsqrt (np_dmax (map edge_norm_sq es))))
  end.
(** _nelder_mead.py:132-135, 213-216 *)
Definition dfprime_exceeded (cutoff : option double) (sim : list fpoint) (v : double) : res bool :=
  match cutoff with
  | None => Ok false
  | Some c => let! e := fprime_estimate sim v in Ok (flt c e)
  end.
(** _nelder_mead.py:141-144 *)
Definition dconverged (p : dparams) (sim : list fpoint) (fsim : list double) : res bool :=
  match tl sim with
  | [] => Err ValueError
  | rest =>
    Ok (dle (np_dmax (map dabs (concat (map (fun x => dvsub x (hd [] sim)) rest)))) (dp_xtol p)
        && dle (np_dmax (map (fun v => dabs (fsub (hd nan fsim) v)) (tl fsim))) (dp_ftol p))
  end.

Section Run.
  Variable argsort : list double -> list nat.     (* np.argsort *)
  Variable np_dmin : list double -> double.       (* np.min; which zero it returns is open *)
  Variable func : nat -> fpoint -> res double.

  (** _nelder_mead.py:44-51 [wrap_function] *)
  Definition dcall (w : dworld) (x : fpoint) : res (dworld * double) :=
    let! v := func (dw_calls w) x in
    Ok ({| dw_calls := S (dw_calls w); dw_log := dw_log w ++ [(x, v)] |}, v).
  (** _nelder_mead.py:116 *)
  Fixpoint dcall_all (w : dworld) (xs : list fpoint) : res (dworld * list double) :=
    match xs with
    | [] => Ok (w, [])
    | x :: xs' =>
      let! wv := dcall w x in
      let! wvs := dcall_all (fst wv) xs' in
      Ok (fst wvs, snd wv :: snd wvs)
    end.
  (** _nelder_mead.py:189 *)
  Definition shrunk (x0 x : fpoint) : fpoint := dvadd x0 (dvscale dhalf (dvsub x x0)).
  (** _nelder_mead.py:188-191 *)
  Fixpoint dshrink_loop (x0 : fpoint) (w : dworld) (xs : list fpoint) : res (dworld * list fpoint * list double) :=
    match xs with
    | [] => Ok (w, [], [])
    | x :: xs' =>
      let y := shrunk x0 x in
      let! wv := dcall w y in
      let! r := dshrink_loop x0 (fst wv) xs' in
      let '(w', ys, vs) := r in
      Ok (w', y :: ys, snd wv :: vs)
    end.

  (** _nelder_mead.py:147-191: one iteration before sorting *)
  Definition dnm_move (n : nat) (sim : list fpoint) (fsim : list double) (w : dworld)
      : res (list fpoint * list double * dworld) :=
    let xbar := dcentroid n (removelast sim) in
    let worst := last sim [] in
    let fworst := last fsim nan in
    let xr := dvsub (dvscale dtwo xbar) (dvscale fone worst) in
    let! (w, fxr) := dcall w xr in
    if flt fxr (hd nan fsim) then
      let xe := dvsub (dvscale dthree xbar) (dvscale dtwo worst) in
      let! (w, fxe) := dcall w xe in
      if flt fxe fxr then Ok (set_last sim xe, set_last fsim fxe, w)
      else Ok (set_last sim xr, set_last fsim fxr, w)
    else if flt fxr (last (removelast fsim) nan) then
      Ok (set_last sim xr, set_last fsim fxr, w)
    else
      let! (sim1, fsim1, w, doshrink) :=
        if flt fxr fworst then
          let xc := dvsub (dvscale dthree_halves xbar) (dvscale dhalf worst) in
          let! (w, fxc) := dcall w xc in
          if dle fxc fxr then Ok (set_last sim xc, set_last fsim fxc, w, false)
          else Ok (sim, fsim, w, true)
        else
          let xcc := dvadd (dvscale dhalf xbar) (dvscale dhalf worst) in
          let! (w, fxcc) := dcall w xcc in
          if flt fxcc fworst then Ok (set_last sim xcc, set_last fsim fxcc, w, false)
          else Ok (sim, fsim, w, true)
      in
      if (doshrink : bool) then
        let! r := dshrink_loop (hd [] sim1) w (tl sim1) in
        let '(w, ys, vs) := r in
        Ok (hd [] sim1 :: ys, hd nan fsim1 :: vs, w)
      else Ok (sim1, fsim1, w).

  (** _nelder_mead.py:119-122, 193-195 *)
  Definition dsort_simplex (sim : list fpoint) (fsim : list double) : list fpoint * list double :=
    let ind := argsort fsim in (take [] sim ind, take nan fsim ind).

  Record dstate := mk_dstate {
    ds_sim : list fpoint;
    ds_fsim : list double;
    ds_world : dworld;
    ds_iter : nat;
    ds_hist : list (list fpoint);
    ds_fhist : list (list double)
  }.

  (** _nelder_mead.py:131-201: the main loop *)
  Fixpoint dnm_loop (fuel n maxfun maxiter : nat) (p : dparams) (s : dstate) : res dstate :=
    if ((dw_calls (ds_world s) <? maxfun) && (ds_iter s <? maxiter))%nat then
      match fuel with
      | O => Err OutOfFuel
      | S fuel' =>
        let! e := dfprime_exceeded (dp_fprime p) (ds_sim s) (hd nan (ds_fsim s)) in
        if (e : bool) then Ok s else
        let! c := dconverged p (ds_sim s) (ds_fsim s) in
        if (c : bool) then Ok s else
        let! r := dnm_move n (ds_sim s) (ds_fsim s) (ds_world s) in
        let '(sim1, fsim1, w1) := r in
        let (sim2, fsim2) := dsort_simplex sim1 fsim1 in
        dnm_loop fuel' n maxfun maxiter p
          {| ds_sim := sim2; ds_fsim := fsim2; ds_world := w1; ds_iter := S (ds_iter s);
             ds_hist := extend_history (dp_keep p) (ds_hist s) sim2;
             ds_fhist := extend_history (dp_keep p) (ds_fhist s) fsim2 |}
      end
    else Ok s.

  (** _nelder_mead.py:207-220 *)
  Definition dnm_status (p : dparams) (maxfun maxiter : nat) (s : dstate) (value : double) : res Z :=
    if (maxfun <=? dw_calls (ds_world s))%nat then Ok 1%Z
    else if (maxiter <=? ds_iter s)%nat then Ok 2%Z
    else
      let! e := dfprime_exceeded (dp_fprime p) (ds_sim s) value in
      if (e : bool) then Ok 3%Z else Ok 0%Z.

  (** _nelder_mead.py:113-114 *)
  Definition dwell_shaped (n : nat) (sim : list fpoint) : bool :=
    (length sim =? S n)%nat && forallb (fun x => (length x =? n)%nat) sim.

  (** _nelder_mead.py:54-239 [root_nelder_mead] *)
  Definition droot_nelder_mead (p : dparams) (initial : list fpoint) : res (dmin_result * dworld) :=
    match initial with
    | [] => Err IndexError
    | x0 :: _ =>
      let n := length x0 in
      let maxiter := limit (dp_maxiter p) n in
      let maxfun := limit (dp_maxfev p) n in
      if negb (dwell_shaped n initial) then Err AssertionError else
      let! wf := dcall_all {| dw_calls := 0; dw_log := [] |} initial in
      let (w, f0) := wf in
      let (sim, fsim) := dsort_simplex initial f0 in
      let! s := dnm_loop maxiter n maxfun maxiter p
        {| ds_sim := sim; ds_fsim := fsim; ds_world := w; ds_iter := 1;
           ds_hist := [sim]; ds_fhist := [fsim] |} in
      let value := np_dmin (ds_fsim s) in
      let! status := dnm_status p maxfun maxiter s value in
      Ok ({| dr_pos := hd [] (ds_sim s); dr_value := value; dr_success := (status =? 0)%Z;
             dr_status := status; dr_num_fev := dw_calls (ds_world s); dr_num_iter := ds_iter s;
             dr_simplex_history := ds_hist s;
             dr_fun_history := if dp_keep p then Some (ds_fhist s) else None |}, ds_world s)
    end.
End Run.

(** ** nodefinder/search/_minimization/_run.py *)

(** _minimization/_run.py:17-21 [add_fake_potential] *)
Definition dadd_fake (fake func : nat -> fpoint -> res double) (k : nat) (x : fpoint) : res double :=
  let! v := func k x in
  let! u := fake k x in
  Ok (fadd v u).
(** _minimization/_run.py:58: [ftol] replaced by infinity *)
Definition dwith_ftol_inf (p : dparams) : dparams :=
  mk_dparams (dp_xtol p) (B754_infinity false) (dp_maxiter p) (dp_maxfev p) (dp_fprime p) (dp_keep p).
(** _minimization/_run.py:64-66 *)
Definition dblow_up (sim : list fpoint) : list fpoint :=
  map (fun x => dvadd (hd [] sim) (dvscale dthree_halves (dvsub x (hd [] sim)))) sim.
(** _minimization/_run.py:52-76 [run_minimization] with a fake potential: the result of the first and of the
    second run, with their evaluations (the calls of the second run continue the numbering of
    the first); the joined result takes position, value, success and status from the second *)
Definition drun_two_step (argsort : list double -> list nat) (np_dmin : list double -> double)
    (func fake : nat -> fpoint -> res double) (p : dparams) (initial : list fpoint)
    : res ((dmin_result * dworld) * (dmin_result * dworld)) :=
  let! r1 := droot_nelder_mead argsort np_dmin (dadd_fake fake func) (dwith_ftol_inf p) initial in
  match rev (dr_simplex_history (fst r1)) with
  | [] => Err IndexError
  | simplex_final :: _ =>
    let! r2 := droot_nelder_mead argsort np_dmin (fun k x => func (dw_calls (snd r1) + k)%nat x) p (dblow_up simplex_final) in
    Ok (r1, r2)
  end.
