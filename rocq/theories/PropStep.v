(** C70: the iterations of a minimization are Nelder-Mead steps. *)
From Verif Require Import Base BaseFacts CoordSys SpecGeom Values NelderMead SpecMin NelderMeadFacts NelderMeadExtra SpecStep StepFacts.
Open Scope list_scope.
Open Scope Qc_scope.

(** *** A run evaluates the initial simplex, then makes Nelder-Mead steps ([nm_step]), each from
    the reordered result of the one before, as long as it [continues]; it makes no other
    evaluations, the iterations are counted, the position of the best vertex is reported, and
    the history, if kept, lists the simplices and values of the steps. *)
Theorem C70_run : forall argsort func p n initial r w, argsort_ok argsort -> is_simplex n initial -> root_nelder_mead argsort func p initial = Ok (r, w) ->
  let maxfev := match p_maxfev p with Some k => k | None => n * 200 end%nat in
  let maxiter := match p_maxiter p with Some k => k | None => n * 200 end%nat in
  exists f0 start evaluations simplices, length f0 = length initial /\
    Permutation (combine initial f0) start /\ Sorted (fun x y => nle (snd x) (snd y) = true) start /\
    nm_chain (fun x y => flt x y = true) (fun x y => fle x y = true) (fun x y => nle x y = true) on_line halfway
      (continues p maxfev maxiter) start (S n) 1 evaluations simplices /\
    w_log w = combine initial f0 ++ concat evaluations /\ r_num_iter r = S (length evaluations) /\
    (exists best rest, last simplices start = best :: rest /\ r_pos r = fst best) /\
    (p_keep p = true -> r_simplex_history r = map (map fst) (start :: simplices) /\ r_fun_history r = Some (map (map snd) (start :: simplices))).
Proof. intros argsort func p n initial r w Hs Hi E. exact (root_chain argsort Hs func n p initial r w Hi E). Qed.
Print Assumptions C70_run.

(** hypotheses met: ten iterations in two dimensions with 18 evaluations after the initial three *)
Definition c70_f (x : point) : fval := match x with [a; b] => Fin ((a - qc 3) * (a - qc 3) + (b - qc 2) * (b - qc 2)) | _ => NaN end.
Theorem C70_hypotheses_met : argsort_ok stable_argsort /\ is_simplex 2 tri /\
  exists r w, root_nelder_mead stable_argsort (fun _ x => Ok (c70_f x)) (nm_par 11 60 None) tri = Ok (r, w) /\ r_num_iter r = 11%nat /\ length (w_log w) = 21%nat /\ length (r_simplex_history r) = 11%nat.
Proof. split; [exact stable_argsort_ok|]. split; [split; [lia|split; [reflexivity|repeat constructor]]|].
  eexists _, _. split; [vm_compute; reflexivity|]. split; [reflexivity|]. split; reflexivity. Qed.
Print Assumptions C70_hypotheses_met.
