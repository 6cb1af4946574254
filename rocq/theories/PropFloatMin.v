(** C60: minimizations in IEEE double precision.  [argsort] and [np_dmin] are any functions
    meeting the specifications of np.argsort and np.min; [func] is an arbitrary oracle whose
    answers (infinities and NaN included) may change from call to call or be exceptions;
    [dw_log w] lists the evaluations made and the values returned, in order. *)
From Verif Require Import Base BaseFacts NelderMead.
From Coq Require Import ZArith Reals.
From Flocq Require Import Core BinarySingleNaN.
From Verif Require Import Float FloatVector FloatMin FloatOrder SpecFloatMin FloatMinFacts FloatMinProps FloatMinExtra.
From Coq Require Import Lra.
Open Scope list_scope.
Open Scope nat_scope.

(** *** The recorded evaluations are the answers the function gave, in order. *)
Theorem C60_log_faithful : forall argsort np_dmin func p n initial r w,
  dargsort_ok argsort -> dmin_ok np_dmin -> is_dsimplex n initial -> droot_nelder_mead argsort np_dmin func p initial = Ok (r, w) ->
  dr_num_fev r = length (dw_log w) /\
  (forall i x v, nth_error (dw_log w) i = Some (x, v) -> func i x = Ok v) /\
  (exists f0 later, dw_log w = combine initial f0 ++ later /\ length f0 = length initial).
Proof. intros argsort np_dmin func p n initial r w Hs Hm Hi E. destruct (drun_log _ _ _ _ _ _ Hs Hi _ _ E) as [A B].
  split; [exact A|]. split; [exact B|]. exact (drun_start _ _ _ _ _ _ Hs Hi _ _ E). Qed.
Print Assumptions C60_log_faithful.

(** *** Without NaN the reported position was evaluated, its value is the reported one, and no
    evaluation gave less. *)
Theorem C60_reports_best : forall argsort np_dmin func p n initial r w,
  dargsort_ok argsort -> dmin_ok np_dmin -> is_dsimplex n initial -> droot_nelder_mead argsort np_dmin func p initial = Ok (r, w) ->
  dnan_free (dw_log w) ->
  (exists v, In (dr_pos r, v) (dw_log w) /\ same_number (dr_value r) v) /\
  (forall x u, In (x, u) (dw_log w) -> dle (dr_value r) u = true).
Proof. intros argsort np_dmin func p n initial r w Hs Hm Hi E N. destruct (drun_best _ _ _ _ _ _ Hs Hm Hi _ _ E N) as (A & _ & B). auto. Qed.
Print Assumptions C60_reports_best.

(** *** Success: the computed differences are within the tolerances ... *)
Theorem C60_success_converged : forall argsort np_dmin func p n initial r w,
  dargsort_ok argsort -> dmin_ok np_dmin -> is_dsimplex n initial -> droot_nelder_mead argsort np_dmin func p initial = Ok (r, w) ->
  dnan_free (dw_log w) -> dr_success r = true ->
  exists sim fsim h, dr_simplex_history r = h ++ [sim] /\ hd [] sim = dr_pos r /\
    Forall2 (fun x v => In (x, v) (dw_log w)) sim fsim /\
    (forall fh, dr_fun_history r = Some fh -> last fh [] = fsim) /\
    dtolerances_met (dp_xtol p) (dp_ftol p) sim fsim.
Proof. intros argsort np_dmin func p n initial r w Hs Hm Hi E N S. exact (drun_converged _ _ _ _ _ _ Hs Hm Hi _ _ E N S). Qed.
Print Assumptions C60_success_converged.

(** ... and so are the true ones, up to a relative error of 2^-52. *)
Theorem C60_success_close : forall argsort np_dmin func p n initial r w,
  dargsort_ok argsort -> dmin_ok np_dmin -> is_dsimplex n initial -> droot_nelder_mead argsort np_dmin func p initial = Ok (r, w) ->
  dnan_free (dw_log w) -> dr_success r = true ->
  is_finite (dp_xtol p) = true -> (bpow radix2 (-1000) <= B2R (dp_xtol p))%R ->
  Forall (fun xv => Forall (fun c => is_finite c = true) (fst xv)) (dw_log w) ->
  exists sim h, dr_simplex_history r = h ++ [sim] /\ hd [] sim = dr_pos r /\
    Forall (fun x => Forall2 (fun a b => (Rabs (B2R a - B2R b) <= B2R (dp_xtol p) * (1 + bpow radix2 (-52)))%R) x (dr_pos r)) (tl sim).
Proof. intros argsort np_dmin func p n initial r w Hs Hm Hi E N S Fx Px FL.
  destruct (drun_converged _ _ _ _ _ _ Hs Hm Hi _ _ E N S) as (sim & fsim & h & A & B & C & D & T). exists sim, h. split; auto. split; auto.
  destruct sim as [|x0 sim]; [destruct T|]. destruct fsim as [|f0 fsim]; [destruct T|]. destruct T as [T _]. cbn [hd tl] in *. rewrite <- B.
  assert (Fin : forall x, In x (x0 :: sim) -> Forall (fun c => is_finite c = true) x).
  { intros x Hx. apply (In_nth _ _ []) in Hx as (i & Hi' & <-).
    assert (In (nth i (x0 :: sim) [], nth i (f0 :: fsim) nan) (dw_log w)) as I.
    { clear -C Hi'. revert i Hi'. induction C; intros [|i] L; cbn in *; try lia; auto. apply IHC. lia. }
    rewrite Forall_forall in FL. exact (FL _ I). }
  apply Forall_forall. intros x Hx. rewrite Forall_forall in T. specialize (T x Hx).
  pose proof (Fin x (or_intror Hx)) as F1. pose proof (Fin x0 (or_introl eq_refl)) as F0. clear -T F1 F0 Fx Px.
  induction T; constructor; inversion F1; inversion F0; subst; auto. apply close_real; auto. Qed.
Print Assumptions C60_success_close.

(** *** The status code tells why the run ended. *)
Theorem C60_status : forall argsort np_dmin func p n initial r w,
  dargsort_ok argsort -> dmin_ok np_dmin -> is_dsimplex n initial -> droot_nelder_mead argsort np_dmin func p initial = Ok (r, w) ->
  let maxfev := match dp_maxfev p with Some k => k | None => n * 200 end in
  let maxiter := match dp_maxiter p with Some k => k | None => n * 200 end in
  exists sim h, dr_simplex_history r = h ++ [sim] /\ is_dsimplex n sim /\ hd [] sim = dr_pos r /\
    (dr_success r = true <-> dr_status r = 0%Z) /\
    (dr_status r = 1%Z <-> maxfev <= dr_num_fev r) /\
    (dr_status r = 2%Z <-> dr_num_fev r < maxfev /\ maxiter <= dr_num_iter r) /\
    (dr_status r = 3%Z <-> (dr_num_fev r < maxfev /\ dr_num_iter r < maxiter) /\ dfprime_exceeded (dp_fprime p) sim (dr_value r) = Ok true) /\
    (dr_status r = 0%Z <-> (dr_num_fev r < maxfev /\ dr_num_iter r < maxiter) /\ dfprime_exceeded (dp_fprime p) sim (dr_value r) = Ok false).
Proof. intros argsort np_dmin func p n initial r w Hs Hm Hi E. exact (drun_status _ _ _ _ _ _ Hs Hi _ _ E). Qed.
Print Assumptions C60_status.

(** *** Bounded work, and the only exceptions are those of the function. *)
Theorem C60_counts : forall argsort np_dmin func p n initial r w,
  dargsort_ok argsort -> is_dsimplex n initial -> droot_nelder_mead argsort np_dmin func p initial = Ok (r, w) ->
  let maxfev := match dp_maxfev p with Some k => k | None => n * 200 end in
  let maxiter := match dp_maxiter p with Some k => k | None => n * 200 end in
  n + 1 <= dr_num_fev r <= maxfev + n + 1 /\ 1 <= dr_num_iter r <= Nat.max 1 maxiter /\
  length (dr_simplex_history r) = if dp_keep p then dr_num_iter r else 1.
Proof. intros argsort np_dmin func p n initial r w Hs Hi E. destruct (drun_counts _ _ _ _ _ _ Hs Hi _ _ E) as [A B]. unfold limit in A. cbv zeta. lia. Qed.
Print Assumptions C60_counts.

Theorem C60_terminates : forall argsort np_dmin func p n initial, dargsort_ok argsort -> is_dsimplex n initial ->
  (exists r w, droot_nelder_mead argsort np_dmin func p initial = Ok (r, w)) \/
  (exists e k x, droot_nelder_mead argsort np_dmin func p initial = Err e /\ func k x = Err e).
Proof. intros argsort np_dmin func p n initial Hs Hi. destruct (droot_nelder_mead argsort np_dmin func p initial) as [[r w]|e] eqn:E; [left; eauto|right].
  destruct (droot_err argsort Hs np_dmin func n p initial e Hi E) as (k & x & H). eauto 6. Qed.
Print Assumptions C60_terminates.

Theorem C60_bad_shape : forall argsort np_dmin func p n initial, (1 <= n)%nat -> initial <> [] -> length (hd [] initial) = n ->
  ~ is_dsimplex n initial -> droot_nelder_mead argsort np_dmin func p initial = Err AssertionError.
Proof. intros argsort np_dmin func p n initial N NE L B. unfold droot_nelder_mead. destruct initial as [|x0 xs] eqn:Ei; [congruence|]. cbn [hd] in L. rewrite L.
  rewrite <- Ei in *. destruct (dwell_shaped n initial) eqn:W; [|reflexivity]. apply dwell_shaped_spec in W; auto. contradiction. Qed.
Print Assumptions C60_bad_shape.

(** *** The history shows evaluated simplices, sorted, with non-increasing best value. *)
Theorem C60_history : forall argsort np_dmin func p n initial r w,
  dargsort_ok argsort -> is_dsimplex n initial -> droot_nelder_mead argsort np_dmin func p initial = Ok (r, w) -> dp_keep p = true ->
  exists fh, dr_fun_history r = Some fh /\
    Forall2 (fun sim fsim => is_dsimplex n sim /\ Sorted (fun x y => dnle x y = true) fsim /\
                             Forall2 (fun x v => In (x, v) (dw_log w)) sim fsim) (dr_simplex_history r) fh /\
    Sorted (fun f g => dnle (hd nan g) (hd nan f) = true) fh /\
    hd [] (last (dr_simplex_history r) []) = dr_pos r /\ np_dmin (last fh []) = dr_value r /\ length fh = dr_num_iter r.
Proof. intros argsort np_dmin func p n initial r w Hs Hi E K. exact (drun_history _ _ _ _ _ _ Hs Hi _ _ E K). Qed.
Print Assumptions C60_history.

(** *** With a fake potential: the reported value is the function itself at the reported
    position, and at most its value at the position found with the fake potential (for a
    function that does not distinguish 0 and -0). *)
Theorem C60_two_step : forall argsort np_dmin f fake p n initial r1 w1 r2 w2,
  dargsort_ok argsort -> dmin_ok np_dmin -> is_dsimplex n initial ->
  drun_two_step argsort np_dmin (fun _ x => Ok (f x)) fake p initial = Ok ((r1, w1), (r2, w2)) ->
  (forall x y, Forall2 same_number x y -> same_number (f x) (f y)) ->
  dnan_free (dw_log w2) -> Forall (fun c => is_finite c = true) (dr_pos r1) ->
  same_number (dr_value r2) (f (dr_pos r2)) /\ dle (dr_value r2) (f (dr_pos r1)) = true.
Proof. intros argsort np_dmin f fake p n initial r1 w1 r2 w2 Hs Hm Hi E Hf N F. unfold drun_two_step in E.
  destruct (droot_nelder_mead argsort np_dmin _ _ initial) as [[r1' w1']|] eqn:E1; cbn [bind fst snd] in E; [|discriminate].
  destruct (drun_status _ _ _ _ _ _ Hs Hi _ _ E1) as (sim & h & Hh & Si & Hp & _). rewrite Hh, rev_app_distr in E. cbn [rev app] in E.
  destruct (droot_nelder_mead argsort np_dmin _ p _) as [[r2' w2']|] eqn:E2; cbn [bind] in E; [|discriminate]. injection E as <- <- <- <-.
  pose proof (blow_up_simplex n sim Si) as Sb.
  destruct (drun_log _ _ _ _ _ _ Hs Sb _ _ E2) as [_ L]. destruct (drun_best _ _ _ _ _ _ Hs Hm Sb _ _ E2 N) as ((v & Iv & Sv) & _ & Bst).
  assert (Val : forall x u, In (x, u) (dw_log w2') -> u = f x).
  { intros x u H. apply In_nth_error in H as (i & H). apply L in H. congruence. }
  split; [rewrite <- (Val _ _ Iv); auto|].
  destruct (drun_start _ _ _ _ _ _ Hs Sb _ _ E2) as (f0 & later & El & Lf).
  assert (I0 : In (hd [] (dblow_up sim), f (hd [] (dblow_up sim))) (dw_log w2')).
  { destruct sim as [|x0 xs]; [destruct Si as (_ & Si & _); discriminate|]. rewrite El in *. destruct (dblow_up (x0 :: xs)) as [|y ys] eqn:Eb; [discriminate|].
    destruct f0 as [|v0 f0]; [discriminate|]. cbn [hd]. assert (I : In (y, v0) (combine (y :: ys) (v0 :: f0) ++ later)) by (left; auto).
    rewrite <- (Val _ _ I). exact I. }
  eapply dle_trans; [exact (Bst _ _ I0)|]. apply (Hf (hd [] (dblow_up sim)) (dr_pos r1')). rewrite <- Hp. apply blow_up_best. exact (eq_ind_r (fun z => Forall (fun c => is_finite c = true) z) F Hp). Qed.
Print Assumptions C60_two_step.

(** finding: in double precision a minimization can collapse its simplex to a single point
    (compare C24) and report success: the constant function from {1, 2} with tolerances 0 *)
Theorem C60_degenerate_refuted : exists r w, droot_nelder_mead stable_dargsort np_min (fun _ _ => Ok (of_int 0))
    (mk_dparams (of_int 0) (of_int 0) (Some 80) (Some 500) None true) [[of_int 1]; [of_int 2]] = Ok (r, w) /\
  dr_success r = true /\ exists h, dr_simplex_history r = h ++ [[[of_int 1]; [of_int 1]]].
Proof. destruct constant_run as (r & w & sim & E & S & (h & H) & ->). exists r, w. split; [exact E|]. split; [exact S|]. exists h. exact H. Qed.
Print Assumptions C60_degenerate_refuted.

(** the hypotheses are met: sorting and minimum exist, and x*x from {1, 2} is minimized *)
Theorem C60_hypotheses_met : dargsort_ok stable_dargsort /\ dmin_ok np_min /\ is_dsimplex 1 [[of_int 1]; [of_int 2]] /\
  exists r w, droot_nelder_mead stable_dargsort np_min (fun _ x => Ok (match x with [c] => fmul c c | _ => nan end))
      (mk_dparams (of_dyadic 1 (-10)) (of_dyadic 1 (-10)) (Some 80) (Some 500) None true) [[of_int 1]; [of_int 2]] = Ok (r, w) /\
    dr_success r = true /\ 10 < dr_num_iter r /\ dnan_free (dw_log w) /\ exists s, dr_value r = B754_zero s.
Proof. split; [exact stable_dargsort_ok|]. split; [exact np_min_ok|]. split; [split; [lia|split; [reflexivity|apply Forall_forall; intros x [<-|[<-|[]]]; reflexivity]]|].
  destruct square_run as (r & w & E & S & A & B & C & D). exists r, w. split; [exact E|]. split; [exact S|]. split; [exact C|]. split; [exact D|].
  destruct (dr_value r) as [s| | |]; try discriminate B. exists s. reflexivity. Qed.
Print Assumptions C60_hypotheses_met.
