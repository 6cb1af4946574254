(** Property theorems C12-C14: work queues. *)
From Verif Require Import Base CoordSys Queue SpecQueue QueueFacts.
Open Scope Qc_scope.

(** *** C12: for every sequence of operations (with batches free of internal
    duplicates), the objects handed out so far followed by the ones still queued
    are exactly the distinct objects ever added, in order of first insertion. *)
Theorem C12_fifo_exactly_once : forall (A : Type) (E : EqDec A) (norm : A -> A) objs ops q ps,
  NoDup (map norm objs) -> batches_nodup norm ops ->
  run_qops norm (queue_new norm objs) ops = Ok (q, ps) ->
  ps ++ q_queued q = first_occurrences [] (map norm (objs ++ added ops)).
Proof. intros A E norm objs ops q ps N B R. rewrite map_app.
  exact (qi_order (run_qops_inv norm ops (q_inv_new norm objs N) B R)). Qed.
Print Assumptions C12_fifo_exactly_once.

(** consequently nothing is handed out twice *)
Theorem C12_popped_distinct : forall (A : Type) (E : EqDec A) (norm : A -> A) objs ops q ps,
  NoDup (map norm objs) -> batches_nodup norm ops ->
  run_qops norm (queue_new norm objs) ops = Ok (q, ps) -> NoDup (ps ++ q_queued q).
Proof. intros A E norm objs ops q ps N B R. rewrite (C12_fifo_exactly_once _ _ _ _ _ _ _ N B R). apply first_occ_nodup. Qed.
Print Assumptions C12_popped_distinct.

(** the objects being processed are those handed out and not yet marked finished *)
Theorem C12_running : forall (A : Type) (E : EqDec A) (norm : A -> A) objs ops q ps,
  NoDup (map norm objs) -> batches_nodup norm ops ->
  run_qops norm (queue_new norm objs) ops = Ok (q, ps) ->
  Permutation (q_running q ++ finished_objs ops) ps.
Proof. intros A E norm objs ops q ps N B R. exact (qi_run (run_qops_inv norm ops (q_inv_new norm objs N) B R)). Qed.
Print Assumptions C12_running.

(** finding: a batch containing an object twice hands it out twice, and marking
    both as finished raises KeyError *)
Theorem C12_duplicate_batch_refuted : forall (A : Type) (E : EqDec A) (x : A),
  exists q, run_qops (fun y => y) (queue_new (fun y => y) []) [QAdd [x; x]; QPop; QPop] = Ok (q, [x; x]) /\
    exists q', set_finished q x = Ok q' /\ set_finished q' x = Err KeyError.
Proof. intros A E. exact duplicate_batch. Qed.
Print Assumptions C12_duplicate_batch_refuted.

(** *** C13 *)
Theorem C13_vertex_order_irrelevant : forall s t : simplex,
  norm_simplex s = norm_simplex t <-> Permutation s t.
Proof. exact norm_simplex_spec. Qed.
Print Assumptions C13_vertex_order_irrelevant.
Theorem C13_normal_form_stable : forall s : simplex, norm_simplex (norm_simplex s) = norm_simplex s.
Proof. exact norm_simplex_idem. Qed.
Print Assumptions C13_normal_form_stable.
Theorem C13_same_vertices : forall s : simplex, Permutation (norm_simplex s) s.
Proof. exact norm_simplex_perm. Qed.
Print Assumptions C13_same_vertices.

(** *** C14 ([order] is the iteration order of the set of running objects) *)
Theorem C14_saved_objects : forall (A : Type) (E : EqDec A) (norm : A -> A) order objs ops q ps,
  (forall l, Permutation (order l) l) -> NoDup (map norm objs) -> batches_nodup norm ops ->
  run_qops norm (queue_new norm objs) ops = Ok (q, ps) ->
  exists running waiting, objects order q = running ++ waiting /\
    Permutation (running ++ finished_objs ops) ps /\
    ps ++ waiting = first_occurrences [] (map norm (objs ++ added ops)).
Proof. intros A E norm order objs ops q ps Ho N B R. exists (order (q_running q)), (q_queued q).
  split; [reflexivity|]. split; [rewrite Ho|]; eauto using C12_running, C12_fifo_exactly_once. Qed.
Print Assumptions C14_saved_objects.

Theorem C14_reload : forall (A : Type) (E : EqDec A) (norm : A -> A) order order' objs ops q ps,
  (forall x, norm (norm x) = norm x) ->
  (forall l, Permutation (order l) l) -> (forall l, Permutation (order' l) l) ->
  NoDup (map norm objs) -> batches_nodup norm ops ->
  run_qops norm (queue_new norm objs) ops = Ok (q, ps) ->
  let q' := queue_new norm (objects order q) in
  q_queued q' = objects order q /\ q_running q' = [] /\
  objects order' q' = objects order q /\
  finished order' q' = finished order q.
Proof. intros A E norm order order' objs ops q ps Hi Ho Ho' N B R q'.
  pose proof (run_qops_inv norm ops (q_inv_new norm objs N) B R) as I. rewrite <- map_app in I.
  destruct (@q_inv_reload _ _ norm Hi order q _ _ _ Ho I) as (H1 & H2 & _). fold q' in H1, H2.
  split; auto. split; auto. assert (O : objects order' q' = objects order q).
  { unfold objects at 1. rewrite H1, H2. pose proof (Ho' []) as P. apply Permutation_sym, Permutation_nil in P. rewrite P. reflexivity. }
  split; auto. unfold finished. rewrite O. reflexivity. Qed.
Print Assumptions C14_reload.

(** *** Non-vacuity *)
Definition ex_s1 : simplex := [[qc 1; qc 0]; [qc 0; qc 1]; [qc 0; qc 0]].
Definition ex_s2 : simplex := [[qc 0; qc 0]; [qc 0; qc 1]; [qc 1; qc 0]].
Definition ex_s3 : simplex := [[qc 5; qc 0]; [qc 0; qc 1]; [qc 1; qc 0]].
Example ex_same : norm_simplex ex_s1 = norm_simplex ex_s2 /\ norm_simplex ex_s1 <> norm_simplex ex_s3.
Proof. split; [vm_compute; reflexivity|]. vm_compute. intros H. discriminate H. Qed.
Example ex_run : exists q, run_qops norm_simplex (queue_new norm_simplex [ex_s1])
    [QAdd [ex_s2; ex_s3]; QPop; QFinish (norm_simplex ex_s1); QAdd [ex_s1]; QPop]
    = Ok (q, [norm_simplex ex_s1; norm_simplex ex_s3]) /\ q_queued q = [].
Proof. eexists. split; vm_compute; reflexivity. Qed.
Example ex_batches : NoDup (map norm_simplex [ex_s1]) /\
  batches_nodup norm_simplex [QAdd [ex_s2; ex_s3]; QPop; QFinish (norm_simplex ex_s1); QAdd [ex_s1]; QPop].
Proof. split; [repeat constructor; auto|]. simpl. repeat constructor; simpl; auto.
  intros [H|[]]. vm_compute in H. discriminate H. Qed.
