(** C40: the synchronous wrapper. *)
From Coq Require Import String.
From Verif Require Import Base CoordSys SpecGeom CellList Values Container SpecContainer Queue Hdf5 NelderMead SpecMin Controller SpecSearch SpecRun SaveFile RunWrap SearchGenuine PropSearch SearchExample.
Open Scope list_scope.

(** the caller sees the outcome of the search *)
Theorem C40_same_outcome : forall A l (o : res A), l <> ClosedLoop -> (l = RunningLoop -> forall n, o <> Err (BaseExn n)) ->
  fst (run l o) = match o with Ok r => Returns r | Err e => Raises e end.
Proof. intros A l o Nc Nb. destruct l; try (destruct o; reflexivity); [congruence|]. destruct o as [r|e]; [reflexivity|]. specialize (Nb eq_refl).
  destruct e; try reflexivity. destruct (Nb n eq_refl). Qed.
Print Assumptions C40_same_outcome.
(** the caller's loop is not closed; a loop created in the calling thread is closed *)
Theorem C40_loops : forall A l (o : res A), l_callers_closed (snd (run l o)) = true <-> l = ClosedLoop.
Proof. intros A l o. destruct l, o as [r|e]; cbn; try (split; [discriminate|discriminate]); try (split; auto); try discriminate;
  destruct (is_exception e); cbn; try discriminate; auto. Qed.
Print Assumptions C40_loops.
Theorem C40_own_loop_closed : forall A l (o : res A), (l <> RunningLoop \/ exists r, o = Ok r) -> l_leaked (snd (run l o)) = 0%nat.
Proof. intros A l o [H|(r & ->)]; destruct l; try congruence; try (destruct o; reflexivity); reflexivity. Qed.
Print Assumptions C40_own_loop_closed.

(** finding: in a helper thread, an outcome that is not an [Exception] makes the
    caller wait for ever *)
Theorem C40_interrupt_hangs_refuted : forall A n, fst (run RunningLoop (@Err A (BaseExn n))) = NeverReturns.
Proof. reflexivity. Qed.
Print Assumptions C40_interrupt_hangs_refuted.
(** finding: in a helper thread, a search that raises leaves an open event loop *)
Theorem C40_loop_leak_refuted : forall A e, l_leaked (snd (run RunningLoop (@Err A e))) = 1%nat.
Proof. intros A e. destruct e; reflexivity. Qed.
Print Assumptions C40_loop_leak_refuted.

(** a search on a potential that raises only [Exception]s: [run] returns the container
    of the finished search or raises an exception of the potential, in any thread *)
Theorem C40_run_search : forall g p evals raises rs ps Q P s file k l o, good_config g -> good_start g s rs ps Q P -> proper_simplices g Q ->
  search g p evals raises s file k -> (forall y e, raises y e -> forall n, e <> BaseExn n) -> l <> ClosedLoop -> async_outcome k = Some o ->
  (k_phase k = Returned /\ fst (run l o) = Returns (st_result (k_state k))) \/
  (exists e y, k_phase k = Raised e /\ raises y e /\ fst (run l o) = Raises e).
Proof. intros g p evals raises rs ps Q P s file k l o GC GS PS S Nb Nl E. unfold async_outcome in E. destruct (k_phase k) as [| | |e] eqn:Ph; try discriminate; injection E as <-.
  - left. split; auto. rewrite C40_same_outcome; auto. discriminate.
  - right. destruct (C33_only_user_exceptions g p evals raises rs ps Q P s file k GC GS PS S e Ph) as (y & Hy). exists e, y. split; auto. split; auto.
    rewrite C40_same_outcome; auto. intros _ n [= ->]. exact (Nb y _ Hy n eq_refl). Qed.
Print Assumptions C40_run_search.

(** the hypotheses are met (the potential of C37_hypotheses_met, called from a
    thread whose event loop is running) *)
Theorem C40_hypotheses_met : exists g p (f : point -> fval) Q s k c, good_config g /\ good_start g s [] [] Q [] /\ proper_simplices g Q /\
  search g p (fun y v => v = f y) (fun _ _ => False) s None k /\ async_outcome k = Some (Ok c) /\ fst (run RunningLoop (Ok c)) = Returns c /\
  List.length (cl_flat (c_nodes c)) = 1%nat.
Proof. destruct C37_hypotheses_met as (g & p & f & Q & s & k & A & B & C & _ & _ & _ & D & E & F).
  exists g, p, f, Q, s, k, (st_result (k_state k)). unfold async_outcome. rewrite E. auto 10. Qed.
Print Assumptions C40_hypotheses_met.
