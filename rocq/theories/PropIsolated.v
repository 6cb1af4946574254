(** C68: isolated nodes are reported as nodal points. *)
From Coq Require Import String.
From Verif Require Import Base BaseFacts CoordSys SpecGeom CoordSysFacts GeomCombined CellList Values Container SpecContainer ContainerFacts ContainerHist PropContainer
  Queue QueueFacts SpecQueue Mesh SpecMesh Hdf5 NelderMead SpecMin Controller SpecSearch SpecRun ControllerFacts ControllerSteps SearchFacts SearchProps SearchGenuine SearchExample PropSearch Config SpecConfig PropConfig
  CoordSysR Graph SpecGraph Paths SpecPath Cluster SpecCluster Dimension SpecDim Shape Identify SpecIdentify IdentifyFacts PropCluster PropIdentify PropPipeline SpecIsolated IsolatedFacts.
From Coq Require Import Reals Qreals.
From Coq Require Import Lra.
Open Scope list_scope.
Open Scope R_scope.

(** Positions gathered around isolated centres: whatever the evaluation method, the random
    choices of the libraries and the order of the sets, the identification returns exactly
    one object for each centre that has positions near it; it is a nodal point, within [r] of
    the centre, made of exactly the positions near the centre. *)
Theorem C68_identified : forall env cs fs r centres positions m,
  good_environment cs env -> wf_box cs -> (0 < fs)%Qc -> Forall (is_pos cs) positions -> isolated cs fs r centres positions ->
  exists out found, run_from_positions env cs fs m positions = Ok out /\ ic_cs out = cs /\ ic_feature_size out = fs /\
    Forall2 (point_at cs r positions) found (ic_results out) /\ NoDup found /\
    forall c, In c found <-> In c centres /\ exists x, In x positions /\ distance cs x c <= r.
Proof. intros env cs fs r centres positions m GE B Fp P Iso. exact (isolated_points env cs fs r centres positions GE B Fp P Iso m). Qed.
Print Assumptions C68_identified.

(** A search with valid arguments for a deterministic potential whose values do not exceed the
    threshold only within [r] of isolated centres, followed by identify.run: the identified
    objects are nodal points, one within [r] of each centre that a minimization has ended at,
    and nothing else. *)
Theorem C68_search : forall circle sphere order a load lf force g p s (f : point -> fval) raises file k env m r centres,
  valid_args circle sphere a -> (load = false \/ (load = true /\ lf = Err IOError)) ->
  make_controller circle sphere order a None load true lf force = Ok (g, p, s) ->
  (forall y, f y <> NaN) -> (a_periodic a = true -> forall y z, lattice_eq (g_cs g) y z -> f y = f z) ->
  search g p (fun y v => v = f y) raises s file k -> k_phase k = Returned ->
  good_environment (g_cs g) env -> m = MBallistic \/ m = MShortestPath ->
  isolated (g_cs g) (a_feature a) r centres [] ->
  (forall y, is_pos (g_cs g) y -> fle (f y) (Fin (a_gap a)) = true -> exists c, In c centres /\ distance (g_cs g) y c <= r) ->
  exists out found, identify_run env (SContainer (st_result (k_state k))) None m = Ok out /\
    let positions := map (fun q => normalize_position (g_cs g) (pos_of q)) (filter (is_node (g_gap g)) (map snd (recorded (k_log k)))) in
    Forall2 (point_at (g_cs g) r positions) found (ic_results out) /\ NoDup found /\
    forall c, In c found <-> In c centres /\ exists x, In x positions /\ distance (g_cs g) x c <= r.
Proof. intros circle sphere order a load lf force g p s f raises file k env m r centres V Ld E Nf Pf S Ph GE M Iso Near.
  destruct (C57_search_then_identify circle sphere order a load lf force g p s f raises file k env m V Ld E Nf Pf S Ph GE M) as (out & Eo & Ecs & Efs & Acc & _ & Val).
  destruct (C56_valid_arguments circle sphere order a load lf force V Ld) as (g' & p' & s' & Q & E' & GC & GS & PS & _). rewrite E in E'. injection E' as <- <- <-.
  destruct (C56_configuration _ _ _ _ _ _ _ _ _ _ _ _ E) as (_ & _ & _ & A3 & _).
  destruct (search_facts g p _ raises GC [] [] Q [] s file GS PS k S) as (R & _).
  destruct (reach_kinv g [] [] Q [] GC s file k GS R) as (I & _). pose proof (i_hist _ _ _ _ _ _ I) as H. cbn in H.
  destruct (run_positions env _ _ _ _ _ _ m None (a_feature a) (gc_box g GC) H) as (Er & Pp); [auto|]. set (positions := map _ (filter _ _)) in *.
  destruct (C68_identified env (g_cs g) (a_feature a) r centres positions m GE (gc_box g GC)) as (out' & found & Eo' & _ & _ & Res); [apply V|exact Pp| |].
  - destruct Iso as (I1 & I2 & I3 & I4 & _). repeat (split; auto). intros x Hx. apply Near; [rewrite Forall_forall in Pp; auto|].
    destruct Acc as (_ & Acc & _). apply Acc in Hx. apply in_concat in Hx as (l & Il & Ix). apply in_map_iff in Il as (i & <- & Ii). apply (Val i x Ii Ix).
  - rewrite Er, Eo' in Eo. injection Eo as <-. exists out', found. rewrite Er. split; [exact Eo'|exact Res]. Qed.
Print Assumptions C68_search.

(** hypotheses met: the two centres 0 and 1/2 in the periodic box [0, 1) with feature size 1/5;
    1/50 and 49/50 are near 0, across the boundary *)
Definition c68_ps : list point := [[c41_q 1 50]; [c41_q 1 2]; [c41_q 49 50]; [c41_q 51 100]].
Definition c68_cs : list point := [[c41_q 0 1]; [c41_q 1 2]].
Lemma c68_distance x c d : dist_sq c41_cs x c = (d * d)%Qc -> (0 <= d)%Qc -> distance c41_cs x c = Qc2R d.
Proof. intros E N. unfold distance. rewrite E, Qc2R_mul. apply sqrt_square. apply Qc2R_le in N. rewrite Qc2R_0 in N. exact N. Qed.
Lemma c68_q n d : (0 < d)%Z -> Qc2R (c41_q n d) = IZR n / IZR d.
Proof. intros H. unfold Qc2R, c41_q. transitivity (Q2R (Qmake n (Z.to_pos d))); [apply Qeq_eqR; apply Qred_correct|]. unfold Q2R. cbn [Qnum Qden]. rewrite Z2Pos.id by auto. auto. Qed.
Ltac c68_dist n d := rewrite (c68_distance _ _ (c41_q n d)) by (first [apply Qc_is_canon; vm_compute; reflexivity|vm_compute; discriminate]); rewrite !c68_q by reflexivity.
Lemma c68_near0 x : In x c68_ps -> distance c41_cs x [c41_q 0 1] <= 1 / 40 <-> x = [c41_q 1 50] \/ x = [c41_q 49 50].
Proof. intros [<-|[<-|[<-|[<-|[]]]]]; split; auto.
  - intros _. c68_dist 1%Z 50%Z. lra.
  - c68_dist 1%Z 2%Z. lra.
  - intros [X|X]; discriminate X.
  - intros _. c68_dist 1%Z 50%Z. lra.
  - c68_dist 49%Z 100%Z. lra.
  - intros [X|X]; discriminate X. Qed.
Lemma c68_near1 x : In x c68_ps -> distance c41_cs x [c41_q 1 2] <= 1 / 40 <-> x = [c41_q 1 2] \/ x = [c41_q 51 100].
Proof. intros [<-|[<-|[<-|[<-|[]]]]]; split; auto.
  - c68_dist 48%Z 100%Z. lra.
  - intros [X|X]; discriminate X.
  - intros _. c68_dist 0%Z 50%Z. lra.
  - c68_dist 48%Z 100%Z. lra.
  - intros [X|X]; discriminate X.
  - intros _. c68_dist 1%Z 100%Z. lra. Qed.
Theorem C68_hypotheses_met : good_environment c41_cs plain_env /\ wf_box c41_cs /\ (0 < c41_q 1 5)%Qc /\ Forall (is_pos c41_cs) c68_ps /\ isolated c41_cs (c41_q 1 5) (1 / 40) c68_cs c68_ps /\
  exists out i j, run_from_positions plain_env c41_cs (c41_q 1 5) MBallistic c68_ps = Ok out /\ (ic_results out = [i; j] \/ ic_results out = [j; i]) /\
    (forall x, In x (i_positions i) <-> x = [c41_q 1 50] \/ x = [c41_q 49 50]) /\ (forall x, In x (i_positions j) <-> x = [c41_q 1 2] \/ x = [c41_q 51 100]).
Proof. pose proof (C51_environments_exist c41_cs) as GE. destruct C41_hypotheses_met as (_ & _ & B & _).
  assert (Fp : (0 < c41_q 1 5)%Qc) by reflexivity. assert (P : Forall (is_pos c41_cs) c68_ps) by (repeat constructor).
  assert (Iso : isolated c41_cs (c41_q 1 5) (1 / 40) c68_cs c68_ps).
  { split; [repeat constructor|]. split; [rewrite c68_q by reflexivity; lra|]. split; [intros _; repeat constructor; cbn [fst snd]; change 0%Qc with (c41_q 0 1); change 1%Qc with (c41_q 1 1); rewrite !c68_q by reflexivity; lra|]. split.
    - intros c d [<-|[<-|[]]] [<-|[<-|[]]] N; try congruence; rewrite c68_q by reflexivity; c68_dist 1%Z 2%Z; lra.
    - intros x Hx. pose proof (c68_near0 x Hx) as N0. pose proof (c68_near1 x Hx) as N1. destruct Hx as [<-|[<-|[<-|[<-|[]]]]]; [exists [c41_q 0 1]|exists [c41_q 1 2]|exists [c41_q 0 1]|exists [c41_q 1 2]]; (split; [cbn; auto|]); first [apply N0; auto; fail|apply N1; auto]. }
  repeat (split; auto). destruct (C68_identified plain_env c41_cs (c41_q 1 5) (1 / 40) c68_cs c68_ps MBallistic GE B Fp P Iso) as (out & found & E & _ & _ & F & Nd & Mem).
  assert (M0 : In [c41_q 0 1] found). { apply Mem. split; [left; auto|]. exists [c41_q 1 50]. split; [left; auto|]. apply c68_near0; [left|]; auto. }
  assert (M1 : In [c41_q 1 2] found). { apply Mem. split; [right; left; auto|]. exists [c41_q 1 2]. split; [right; left; auto|]. apply c68_near1; [right; left|]; auto. }
  assert (Mi : forall c, In c found -> c = [c41_q 0 1] \/ c = [c41_q 1 2]) by (intros c Hc; apply Mem in Hc as ([<-|[<-|[]]] & _); auto).
  assert (D : [c41_q 0 1] <> [c41_q 1 2]) by discriminate.
  assert (K : forall c i, point_at c41_cs (1 / 40) c68_ps c i -> (c = [c41_q 0 1] -> forall x, In x (i_positions i) <-> x = [c41_q 1 50] \/ x = [c41_q 49 50]) /\ (c = [c41_q 1 2] -> forall x, In x (i_positions i) <-> x = [c41_q 1 2] \/ x = [c41_q 51 100])).
  { intros c i (_ & _ & X). split; intros -> x; rewrite (X x).
    - split; [intros (Hx & Dx); apply (c68_near0 x Hx); auto|]. intros Hx. assert (Ix : In x c68_ps) by (destruct Hx as [->| ->]; cbn; auto). split; auto. apply (c68_near0 x Ix); auto.
    - split; [intros (Hx & Dx); apply (c68_near1 x Hx); auto|]. intros Hx. assert (Ix : In x c68_ps) by (destruct Hx as [->| ->]; cbn; auto). split; auto. apply (c68_near1 x Ix); auto. }
  exists out. revert E. destruct out as [ocs ofs rs]. cbn [ic_results] in *. intros E. set (z := [c41_q 0 1]) in *. set (h := [c41_q 1 2]) in *. clearbody z h.
  inversion F as [|c1 i1 f1 r1 Q1 F1]; subst; [destruct M0|]. inversion F1 as [|c2 i2 f2 r2 Q2 F2]; subst.
  { exfalso. destruct M0 as [<-|[]], M1 as [<-|[]]. auto. }
  inversion F2 as [|c3 i3 f3 r3 Q3 F3]; subst.
  2:{ exfalso. apply NoDup_cons_iff in Nd as (Na & Nd). apply NoDup_cons_iff in Nd as (Nb & Nd). assert (c1 <> c2) by (intros ->; apply Na; left; auto). assert (c1 <> c3) by (intros ->; apply Na; right; left; auto). assert (c2 <> c3) by (intros ->; apply Nb; left; auto).
    destruct (Mi c1), (Mi c2), (Mi c3); cbn; auto; congruence. }
  apply NoDup_cons_iff in Nd as (Na & _). assert (N12 : c1 <> c2) by (intros ->; apply Na; left; auto).
  destruct (Mi c1 (or_introl eq_refl)) as [->| ->], (Mi c2 (or_intror (or_introl eq_refl))) as [->| ->]; try congruence.
  - exists i1, i2. split; [exact E|]. split; [left; auto|]. split; [apply (proj1 (K _ _ Q1)); auto|apply (proj2 (K _ _ Q2)); auto].
  - exists i2, i1. split; [exact E|]. split; [right; auto|]. split; [apply (proj1 (K _ _ Q2)); auto|apply (proj2 (K _ _ Q1)); auto]. Qed.
Print Assumptions C68_hypotheses_met.
