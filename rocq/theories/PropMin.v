(** Property theorems C18-C24: minimizations (root_nelder_mead and
    run_minimization).  [argsort] is any function meeting the specification of
    np.argsort; [func] is an arbitrary oracle whose answers may change from call
    to call or be exceptions; [w_log w] lists the evaluations made and the
    values returned, in order. *)
From Verif Require Import Base BaseFacts CoordSys SpecGeom CoordSysR Values NelderMead SpecMin
  NelderMeadFacts NelderMeadProps NelderMeadAffine NelderMeadExtra.
From Coq Require Import Reals.
Open Scope Qc_scope.

(** the recorded evaluations are the answers the function gave, in order *)
Theorem C18_log_faithful : forall argsort func p n initial r w,
  argsort_ok argsort -> is_simplex n initial -> root_nelder_mead argsort func p initial = Ok (r, w) ->
  forall i x v, nth_error (w_log w) i = Some (x, v) -> func i x = Ok v.
Proof. intros. eapply run_log; eauto. Qed.
Print Assumptions C18_log_faithful.

(** *** C18 *)
Theorem C18_reports_best : forall argsort func p n initial r w,
  argsort_ok argsort -> is_simplex n initial -> root_nelder_mead argsort func p initial = Ok (r, w) ->
  nan_free (w_log w) ->
  In (r_pos r, r_value r) (w_log w) /\
  (forall x v, In (x, v) (w_log w) -> fle (r_value r) v = true).
Proof. intros. eapply run_best; eauto. Qed.
Print Assumptions C18_reports_best.

Theorem C18_value_at_position : forall argsort func f p n initial r w,
  argsort_ok argsort -> is_simplex n initial -> root_nelder_mead argsort func p initial = Ok (r, w) ->
  stateless f func -> nan_free (w_log w) -> r_value r = f (r_pos r).
Proof. intros. eapply run_stateless; eauto. Qed.
Print Assumptions C18_value_at_position.

(** finding: with a NaN value in the starting simplex a better evaluation can be
    thrown away *)
Theorem C18_nan_refuted : exists func p initial r w,
  is_simplex 2 initial /\ root_nelder_mead stable_argsort func p initial = Ok (r, w) /\
  r_value r = Fin 1 /\ In (Fin 0) (map snd (w_log w)).
Proof. exists (fun k x => Ok (nan_f k x)), (nm_par 2 60 None), tri.
  destruct nan_discards as (r & w & H). exists r, w. split; [|exact H].
  split; [lia|]. split; [reflexivity|]. repeat constructor. Qed.
Print Assumptions C18_nan_refuted.

(** the hypotheses are met: a sorting function exists, and a run on x^2
    evaluates many points and succeeds at the minimum *)
Theorem C18_hypotheses_met : argsort_ok stable_argsort /\ is_simplex 1 ex_init /\
  exists r w, root_nelder_mead stable_argsort (fun _ x => Ok (ex_f x)) (nm_par 30 60 None) ex_init = Ok (r, w) /\
    r_success r = true /\ r_pos r = [qc 0] /\ (2 < r_num_iter r)%nat /\ nan_free (w_log w).
Proof. split; [exact stable_argsort_ok|]. split; [split; [lia|split; [reflexivity|repeat constructor]]|].
  destruct ex_run as (r & w & E & A & B & C & D). exists r, w. split; [exact E|]. split; [exact A|]. split; [exact B|].
  split; [exact C|]. apply Forall_forall. intros xv I. rewrite forallb_forall in D. specialize (D xv I).
  destruct (snd xv); congruence. Qed.
Print Assumptions C18_hypotheses_met.

(** *** C19: success implies convergence of the final simplex ... *)
Theorem C19_success_converged : forall argsort func p n initial r w,
  argsort_ok argsort -> is_simplex n initial -> root_nelder_mead argsort func p initial = Ok (r, w) ->
  nan_free (w_log w) -> r_success r = true ->
  exists sim fsim, (exists h, r_simplex_history r = h ++ [sim]) /\ hd [] sim = r_pos r /\
    Forall2 (fun x v => In (x, v) (w_log w)) sim fsim /\ hd NaN fsim = r_value r /\
    (forall fh, r_fun_history r = Some fh -> last fh [] = fsim) /\
    tolerances_met (p_xtol p) (p_ftol p) sim fsim.
Proof. intros argsort func p n initial r w Hs Hi E N Sc.
  destruct (run_converged argsort func p n initial Hs Hi r w E N Sc) as (sim & fsim & (sim' & h' & A1 & A2 & A3 & A4 & A5 & A6) & (h & Hh) & T).
  rewrite Hh in A1. apply app_inj_tail in A1 as [_ <-].
  exists sim, fsim. split; [eauto|]. split; [exact A4|]. split; [exact A2|]. split; [|split; [exact A6|exact T]].
  assert (NF : Forall (fun v => v <> NaN) fsim).
  { clear -A2 N. unfold nan_free in N. rewrite Forall_forall in N. induction A2; constructor; auto. apply (N _ H). }
  destruct fsim as [|f0 fs]; [destruct sim; destruct T|]. rewrite <- A5. symmetry. apply np_min_sorted; auto. Qed.
Print Assumptions C19_success_converged.

(** ... and the status tells which limit was hit, with this priority *)
Theorem C19_status : forall argsort func p n initial r w,
  argsort_ok argsort -> is_simplex n initial -> root_nelder_mead argsort func p initial = Ok (r, w) ->
  let maxfev := match p_maxfev p with Some k => k | None => n * 200 end%nat in
  let maxiter := match p_maxiter p with Some k => k | None => n * 200 end%nat in
  exists sim h, r_simplex_history r = h ++ [sim] /\
  (r_success r = true <-> r_status r = 0%Z) /\
  (r_status r = 1%Z <-> (maxfev <= r_num_fev r)%nat) /\
  (r_status r = 2%Z <-> (r_num_fev r < maxfev /\ maxiter <= r_num_iter r)%nat) /\
  (r_status r = 3%Z <-> (r_num_fev r < maxfev /\ r_num_iter r < maxiter)%nat /\
                        fprime_exceeded (p_fprime p) sim (r_value r) = Ok true) /\
  (r_status r = 0%Z <-> (r_num_fev r < maxfev /\ r_num_iter r < maxiter)%nat /\
                        fprime_exceeded (p_fprime p) sim (r_value r) = Ok false).
Proof. exact (fun a f p n i r w Hs Hi E => run_status a f p n i Hs Hi r w E). Qed.
Print Assumptions C19_status.

(** meaning of the derivative criterion: value / (longest edge) > cutoff *)
Theorem C19_derivative_cutoff : forall n c sim v b, is_simplex n sim ->
  fprime_exceeded (Some c) sim v = Ok b ->
  exists m, longest_edge_sq sim m /\
    (v = PInf -> b = true) /\ (v = NInf \/ v = NaN -> b = false) /\
    (forall a, v = Fin a -> 0 < m -> (b = true <-> (Qc2R a / sqrt (Qc2R m) > Qc2R c)%R)).
Proof. exact fprime_meaning. Qed.
Print Assumptions C19_derivative_cutoff.

Theorem C19_no_cutoff : forall sim v, fprime_exceeded None sim v = Ok false.
Proof. reflexivity. Qed.

(** finding: a run aborted by the derivative cutoff, with the simplex not
    converged, is reported as success when one of the values is NaN *)
Theorem C19_nan_refuted : exists func p initial r w,
  is_simplex 1 initial /\ root_nelder_mead stable_argsort func p initial = Ok (r, w) /\
  r_success r = true /\ length (w_log w) = 2%nat /\
  ~ tolerances_met (p_xtol p) (p_ftol p) (last (r_simplex_history r) []) [Fin 1; NaN].
Proof. exists (fun k x => Ok (nan_g k x)), (nm_par 30 60 (Some half)), seg.
  destruct nan_success as (r & w & E & A & B & C). exists r, w.
  assert (Hi : is_simplex 1 seg) by (split; [lia|split; [reflexivity|repeat constructor]]).
  split; [exact Hi|]. split; [exact E|]. split; [exact A|].
  destruct (run_log _ _ _ _ _ stable_argsort_ok Hi _ _ E) as [L _].
  assert (Wc : r_num_fev r = w_calls w) by (vm_compute in E; injection E as <- <-; reflexivity).
  split; [congruence|]. intros T.
  apply (converged_spec 1) in T; [congruence| |reflexivity].
  destruct (run_final _ _ _ _ _ stable_argsort_ok Hi _ _ E) as (sim & fsim & h & Hh & Si & _). rewrite Hh, last_last. exact Si. Qed.
Print Assumptions C19_nan_refuted.

(** *** C20 *)
Theorem C20_counts : forall argsort func p n initial r w,
  argsort_ok argsort -> is_simplex n initial -> root_nelder_mead argsort func p initial = Ok (r, w) ->
  let maxfev := match p_maxfev p with Some k => k | None => n * 200 end%nat in
  let maxiter := match p_maxiter p with Some k => k | None => n * 200 end%nat in
  r_num_fev r = length (w_log w) /\
  (n + 1 <= r_num_fev r <= maxfev + n + 1)%nat /\
  (1 <= r_num_iter r <= Nat.max 1 maxiter)%nat /\
  (p_keep p = true -> length (r_simplex_history r) = r_num_iter r).
Proof. intros argsort func p n initial r w Hs Hi E.
  destruct (run_counts argsort func p n initial Hs Hi r w E) as ((A & B & C & D) & L).
  destruct (run_log argsort func p n initial Hs Hi r w E) as [F _]. unfold limit in *.
  split; auto. split; auto. split; auto. intros K. rewrite K in L. auto. Qed.
Print Assumptions C20_counts.

(** the run ends; it ends with an exception only if the function raised that
    exception (the internal assertions and the bound on the loop never fail) *)
Theorem C20_terminates : forall argsort func p n initial,
  argsort_ok argsort -> is_simplex n initial ->
  (exists r w, root_nelder_mead argsort func p initial = Ok (r, w)) \/
  (exists e k x, root_nelder_mead argsort func p initial = Err e /\ func k x = Err e).
Proof. intros argsort func p n initial Hs Hi.
  destruct (root_nelder_mead argsort func p initial) as [[r w]|e] eqn:E; [left; eauto|right].
  destruct (root_err argsort Hs func n p initial e Hi E) as (k & x & H). eauto. Qed.
Print Assumptions C20_terminates.

(** a point list that is not a simplex is rejected *)
Theorem C20_bad_shape : forall argsort func p n initial, (1 <= n)%nat -> initial <> [] -> length (hd [] initial) = n ->
  ~ is_simplex n initial -> root_nelder_mead argsort func p initial = Err AssertionError.
Proof. intros argsort func p n initial Hn N L H. destruct initial as [|x0 xs]; [congruence|]. cbn in L.
  unfold root_nelder_mead. rewrite L.
  destruct (well_shaped n (x0 :: xs)) eqn:E; [|reflexivity]. apply well_shaped_spec in E; [contradiction|exact Hn]. Qed.
Print Assumptions C20_bad_shape.

(** finding: more evaluations than maxfev are made *)
Theorem C20_budget_exceeded_refuted : exists func p initial r w, is_simplex 1 initial /\ p_maxfev p = Some 3%nat /\
  root_nelder_mead stable_argsort func p initial = Ok (r, w) /\ r_num_fev r = 5%nat.
Proof. exists (fun k x => Ok (over_f k x)), (nm_par 30 3 None), seg.
  destruct budget_exceeded as (r & w & H). exists r, w. split; [split; [lia|split; [reflexivity|repeat constructor]]|].
  split; [reflexivity|exact H]. Qed.
Print Assumptions C20_budget_exceeded_refuted.

(** *** C21 *)
Theorem C21_history : forall argsort func p n initial r w,
  argsort_ok argsort -> is_simplex n initial -> root_nelder_mead argsort func p initial = Ok (r, w) ->
  p_keep p = true -> exists fh, r_fun_history r = Some fh /\
    Forall2 (fun sim fsim => is_simplex n sim /\ Sorted (fun x y => nle x y = true) fsim /\
                             Forall2 (fun x v => In (x, v) (w_log w)) sim fsim) (r_simplex_history r) fh /\
    Sorted (fun f g => nle (hd NaN g) (hd NaN f) = true) fh /\
    hd [] (last (r_simplex_history r) []) = r_pos r /\ np_min (last fh []) = r_value r /\
    length fh = r_num_iter r.
Proof. exact (fun a f p n i r w Hs Hi E => run_history a f p n i Hs Hi r w E). Qed.
Print Assumptions C21_history.

(** [nle] on comparable values is [<=] *)
Theorem C21_order : forall x y, x <> NaN -> y <> NaN -> nle x y = fle x y.
Proof. intros x y Hx Hy. destruct y; congruence || reflexivity. Qed.

Theorem C21_history_off : forall argsort func p initial,
  let p' := {| p_xtol := p_xtol p; p_ftol := p_ftol p; p_maxiter := p_maxiter p; p_maxfev := p_maxfev p;
               p_fprime := p_fprime p; p_keep := false |} in
  match root_nelder_mead argsort func p initial, root_nelder_mead argsort func p' initial with
  | Ok (r, w), Ok (r', w') =>
      r_pos r' = r_pos r /\ r_value r' = r_value r /\ r_success r' = r_success r /\ r_status r' = r_status r /\
      r_num_fev r' = r_num_fev r /\ r_num_iter r' = r_num_iter r /\
      r_simplex_history r' = [last (r_simplex_history r) []] /\ r_fun_history r' = None /\ w' = w
  | Err e, Err e' => e' = e
  | _, _ => False
  end.
Proof. intros argsort func p initial p'. change p' with (without_history p). rewrite root_keep.
  destruct (root_nelder_mead argsort func p initial) as [[r w]|e]; cbn; repeat split. Qed.
Print Assumptions C21_history_off.

(** *** C22 *)
Theorem C22_two_step : forall argsort func fk p n initial r ow w, argsort_ok argsort -> is_simplex n initial ->
  run_minimization argsort func (Some fk) p initial = Ok (r, ow, w) ->
  exists first w1 second final h,
    root_nelder_mead argsort (fun k x => let! v := func k x in let! u := fk k x in Ok (fadd v u))
      {| p_xtol := p_xtol p; p_ftol := PInf; p_maxiter := p_maxiter p; p_maxfev := p_maxfev p;
         p_fprime := p_fprime p; p_keep := p_keep p |} initial = Ok (first, w1) /\
    ow = Some w1 /\
    r_simplex_history first = h ++ [final] /\ hd [] final = r_pos first /\
    root_nelder_mead argsort (fun k x => func (length (w_log w1) + k)%nat x) p
      (map (fun x => vadd (r_pos first) (vscale (Q2Qc (3 # 2)) (vsub x (r_pos first)))) final) = Ok (second, w) /\
    pos_of r = r_pos second /\ value_of r = r_value second /\ success_of r = r_success second /\
    status_of r = r_status second /\
    num_fev_of r = (length (w_log w1) + length (w_log w))%nat /\ num_iter_of r = (r_num_iter first + r_num_iter second)%nat /\
    simplex_history_of r = r_simplex_history first ++ r_simplex_history second /\
    (forall fh1 fh2, r_fun_history first = Some fh1 -> r_fun_history second = Some fh2 -> fun_history_of r = Ok (fh1 ++ fh2)).
Proof. exact two_step_description. Qed.
Print Assumptions C22_two_step.

Theorem C22_value_without_fake_term : forall argsort func fk f p n initial r ow w,
  argsort_ok argsort -> is_simplex n initial ->
  run_minimization argsort func (Some fk) p initial = Ok (r, ow, w) ->
  stateless f func -> nan_free (w_log w) ->
  value_of r = f (pos_of r) /\
  exists r1 w1, ow = Some w1 /\
    root_nelder_mead argsort (add_fake_potential fk func) (with_ftol_inf p) initial = Ok (r1, w1) /\
    fle (value_of r) (f (r_pos r1)) = true.
Proof. intros argsort func fk f p n initial r ow w Hs Hi E Hf N.
  exact (two_step_improves argsort func fk p n initial Hs Hi r ow w E f Hf N). Qed.
Print Assumptions C22_value_without_fake_term.

Theorem C22_without_fake : forall argsort func p initial,
  run_minimization argsort func None p initial =
  match root_nelder_mead argsort func p initial with Ok (r, w) => Ok (Plain r, None, w) | Err e => Err e end.
Proof. intros. unfold run_minimization. destruct (root_nelder_mead _ _ _ _) as [[r w]|e]; reflexivity. Qed.
Print Assumptions C22_without_fake.

(** a two-step minimization fails only with an exception of the function or the
    fake potential *)
Theorem C22_terminates : forall argsort func fk p n initial, argsort_ok argsort -> is_simplex n initial ->
  (exists r ow w, run_minimization argsort func (Some fk) p initial = Ok (r, ow, w)) \/
  (exists e k x, run_minimization argsort func (Some fk) p initial = Err e /\ (func k x = Err e \/ fk k x = Err e)).
Proof. intros argsort func fk p n initial Hs Hi.
  destruct (run_minimization argsort func (Some fk) p initial) as [[[r ow] w]|e] eqn:E; [left; eauto|right].
  destruct (two_step_err argsort func fk p n initial Hs Hi e E) as [(k & x & H)|(k & x & H)]; eauto 8. Qed.
Print Assumptions C22_terminates.

(** *** C23 *)
Theorem C23_translation : forall argsort func func' n t p initial, argsort_ok argsort -> length t = n -> is_simplex n initial ->
  (forall k x, length x = n -> func' k (vadd x t) = func k x) ->
  match root_nelder_mead argsort func p initial with
  | Err e => root_nelder_mead argsort func' p (map (fun x => vadd x t) initial) = Err e
  | Ok (r, w) => exists r' w', root_nelder_mead argsort func' p (map (fun x => vadd x t) initial) = Ok (r', w') /\
      r_pos r' = vadd (r_pos r) t /\ r_value r' = r_value r /\ r_success r' = r_success r /\ r_status r' = r_status r /\
      r_num_fev r' = r_num_fev r /\ r_num_iter r' = r_num_iter r /\
      r_simplex_history r' = map (map (fun x => vadd x t)) (r_simplex_history r) /\ r_fun_history r' = r_fun_history r /\
      w_log w' = map (fun xv => (vadd (fst xv) t, snd xv)) (w_log w)
  end.
Proof. exact run_translate. Qed.
Print Assumptions C23_translation.

Theorem C23_lattice : forall argsort func cs t p initial r w, argsort_ok argsort -> periodic cs = true -> wf_box cs ->
  is_simplex (dim cs) initial -> lattice_eq cs (repeat 0 (dim cs)) t ->
  (forall k x y, lattice_eq cs x y -> func k x = func k y) ->
  root_nelder_mead argsort func p initial = Ok (r, w) ->
  exists r' w', root_nelder_mead argsort func p (map (fun x => vadd x t) initial) = Ok (r', w') /\
    normalize_position cs (r_pos r') = normalize_position cs (r_pos r) /\ r_value r' = r_value r /\
    r_status r' = r_status r.
Proof. exact run_lattice. Qed.
Print Assumptions C23_lattice.

(** *** C24 *)
Theorem C24_nondegenerate : forall argsort func p n initial r w,
  argsort_ok argsort -> is_simplex n initial -> aff_indep n initial ->
  root_nelder_mead argsort func p initial = Ok (r, w) -> Forall (aff_indep n) (r_simplex_history r).
Proof. exact run_nondegenerate. Qed.
Print Assumptions C24_nondegenerate.

Theorem C24_two_step : forall argsort func fake p n initial r ow w,
  argsort_ok argsort -> is_simplex n initial -> aff_indep n initial ->
  run_minimization argsort func fake p initial = Ok (r, ow, w) -> Forall (aff_indep n) (simplex_history_of r).
Proof. intros argsort func [fk|] p n initial r ow w Hs Hi A E.
  - destruct (two_step argsort func fk p n initial Hs Hi r ow w E) as (r1 & w1 & r2 & sim & h & -> & -> & E1 & Hh & Si & Hp & E2).
    pose proof (run_nondegenerate _ _ _ _ _ _ _ Hs Hi A E1) as F1.
    cbn [simplex_history_of]. apply Forall_app. split; auto.
    assert (Si0 : is_simplex n sim).
    { destruct (run_final _ _ _ _ _ Hs Hi _ _ E1) as (sim' & fs & h' & Hh' & Si' & _). rewrite Hh in Hh'.
      apply app_inj_tail in Hh' as [_ ->]. exact Si'. }
    eapply run_nondegenerate; [exact Hs|exact Si| |exact E2]. apply aff_blow_up; auto.
    rewrite Hh in F1. apply Forall_app in F1 as [_ F1]. inversion F1; auto.
  - rewrite C22_without_fake in E. destruct (root_nelder_mead argsort func p initial) as [[r1 w1]|e] eqn:E1; [|discriminate].
    injection E as <- <- <-. cbn. eapply run_nondegenerate; eauto. Qed.
Print Assumptions C24_two_step.

(** the hypotheses are met by the unit triangle *)
Theorem C24_hypotheses_met : is_simplex 2 tri /\ aff_indep 2 tri.
Proof. split; [split; [lia|split; [reflexivity|repeat constructor]]|].
  intros cs L S H. destruct cs as [|a [|b [|c [|d cs]]]]; try discriminate. clear L.
  pose proof (H 0%nat ltac:(lia)) as H0. pose proof (H 1%nat ltac:(lia)) as H1. clear H.
  unfold qsum, tri in *. cbn in S, H0, H1.
  assert (B : b = 0). { transitivity (a * qc 0 + (b * qc 1 + (c * qc 0 + 0))); [|exact H0]. change (qc 0) with 0. change (qc 1) with 1. ring. }
  assert (C : c = 0). { transitivity (a * qc 0 + (b * qc 0 + (c * qc 1 + 0))); [|exact H1]. change (qc 0) with 0. change (qc 1) with 1. ring. }
  subst b c. assert (A : a = 0). { transitivity (a + (0 + (0 + 0))); [ring|exact S]. }
  subst. repeat constructor. Qed.
Print Assumptions C24_hypotheses_met.
