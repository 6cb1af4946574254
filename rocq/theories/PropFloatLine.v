(** C73: the line evaluation, and the whole identification, in double precision. *)
From Coq Require Import ZArith Reals Psatz List Permutation.
From Flocq Require Import Core BinarySingleNaN.
From Verif Require Import Base BaseFacts CoordSys Graph SpecGraph GraphFacts SpecCluster CellList Queue QueueFacts SpecQueue Dimension Float FloatFacts FloatVector FloatVectorFacts NelderMead FloatMin FloatOrder SpecFloatMin FloatMinFacts FloatMinProps FloatMinExtra
  FloatCell SpecFloatCell FloatCellNum FloatCellFacts FloatDistNum FloatStepNum FloatStepFacts PropFloatCell FloatCheck FloatController SpecFloatSearch SpecFloatRun FloatSearchFacts FloatSearchSteps FloatSearchLog FloatSearchProps FloatSearchStart PropFloatSearch FloatSearchExample FloatGenuine FloatRunExample PropFloatRun
  FloatCluster SpecFloatCluster FloatClusterFacts PropFloatCluster FloatIdentify SpecFloatIdentify FloatSumFacts FloatAverage FloatIdentifyFacts FloatIdentifyExample PropFloatIdentify
  GraphComponents Paths SpecPath PathFacts ClusterFacts Ballistic ShortestPath FloatLine SpecFloatLine FloatLineNum FloatLineFacts FloatIdentifyTotal.
From Coq Require Import Lra.
Import ListNotations.
Open Scope list_scope.
Open Scope R_scope.

(** ** facts about clusters *)
Lemma fcluster_connected order eorder per boxes fs positions c : any_order order -> any_order eorder -> good_clustering boxes fs positions ->
  In c (fcreate_clusters order eorder per boxes fs positions) -> connected c.
Proof. intros HO EO GC Ic x y Ix Iy. pose proof (gc_finite boxes fs positions GC) as P. pose proof (fcluster_same order eorder per boxes fs positions HO P c) as Sm.
  apply (Sm x y Ic Ix) in Iy. destruct Iy as (p & F & L). exists p. split; auto. clear L. revert x Ix F. induction p as [|z p IH]; intros x Ix F; cbn; auto. destruct F as [F1 F2].
  assert (Iz : In z (g_nodes c)) by (apply (Sm x z Ic Ix); apply linked_one; auto). split; [|apply IH; auto]. eapply fcluster_edges; eauto. Qed.
Lemma fcluster_weights order eorder per boxes fs positions c e : any_order order -> any_order eorder -> good_clustering boxes fs positions ->
  In c (fcreate_clusters order eorder per boxes fs positions) -> In e (g_edges c) -> nonneg (snd e).
Proof. intros HO EO GC Ic I. pose proof (gc_finite boxes fs positions GC) as P. destruct e as [[a b] w]. destruct (fcluster_attr order eorder per boxes fs positions HO EO P c a b w Ic I) as ((Bf & D) & ->). destruct (before_in _ _ _ Bf) as (Ia & Ib). cbn [snd].
  pose proof GC as (Gb & Ne & Ll & _). destruct (C69_distance per boxes b a Gb Ne Ll (us_good order boxes fs positions HO GC b Ib) (us_good order boxes fs positions HO GC a Ia)) as (F & D0 & _). apply nonneg_cases. right. auto. Qed.
Lemma line_in_cluster order eorder per boxes fs positions c (r : graph (list double) unit) : any_order order -> any_order eorder -> good_clustering boxes fs positions ->
  In c (fcreate_clusters order eorder per boxes fs positions) -> wf_graph r -> part_of r c -> dominates c (g_nodes r) -> fline_along per boxes fs c r.
Proof. intros HO EO GC Ic W (P1 & P2) D. split; [exact W|]. split; [split; auto|]. split; [exact D|]. intros u v E. destruct (C69_edges order eorder per boxes fs positions u v c HO EO GC Ic (P2 u v E)) as (_ & _ & w & _ & _ & _ & Bw & Wt & _).
  eapply within_mono; [|exact Wt]. destruct GC as (Gb & _). split; [apply Rplus_le_le_0_compat; [apply Bw|apply error_nonneg; [exact Gb|apply Bw]]|]. apply Rplus_le_compat; [apply Bw|apply error_mono; apply Bw]. Qed.

(** *** The shortest-path method, for every cluster of every list of positions: no exception; the
    line consists of positions and edges of the cluster, is connected, and every position is on it or
    adjacent to it. *)
Theorem C73_shortest_path : forall le order eorder per boxes fs positions c, good_line_env le -> any_order order -> any_order eorder ->
  good_clustering boxes fs positions -> 0 < B2R fs -> In c (fcreate_clusters order eorder per boxes fs positions) ->
  exists r, fevaluate_line_shortest_path le fs c = Ok r /\ fline_along per boxes fs c r /\ connected r.
Proof. intros le order eorder per boxes fs positions c Le HO EO GC Fp Ic. pose proof (gc_finite boxes fs positions GC) as P.
  pose proof (fcluster_wf order eorder per boxes fs positions HO EO P c Ic) as W. destruct (double_shortest_path_ok le fs c Le W) as (r & E & R1 & R2 & R3 & R4).
  - eapply fcluster_connected; eauto.
  - apply GC.
  - exact Fp.
  - intros e I. eapply fcluster_weights; eauto.
  - eapply fcluster_nonempty; eauto.
  - exists r. split; [exact E|]. split; [|exact R3]. eapply line_in_cluster; eauto. Qed.
Print Assumptions C73_shortest_path.

(** *** The ballistic method, for clusters in which every position has a neighbour that is clearly
    not the same position (or an image of it), with coordinates of moderate size (C59): no exception;
    the line consists of positions and edges of the cluster, of non-zero computed length; every position
    is on it or adjacent to it. *)
Definition moderate_boxes (boxes : list (double * double)) : Prop := Forall (fun b => Rabs (B2R (fst b)) <= bpow radix2 20 /\ Rabs (B2R (snd b)) <= bpow radix2 20) boxes.
Definition moderate_coordinates (positions : list (list double)) : Prop := Forall (Forall (fun x => Rabs (B2R x) <= bpow radix2 20)) positions.
Lemma clearly_step per boxes fs positions x y : good_clustering boxes fs positions -> In x positions -> In y positions -> clearly_different per boxes x y -> flt fzero (fdist per boxes x y) = true.
Proof. intros GC Ix Iy Df. pose proof GC as (Gb & Ne & Ll & _ & Gp). rewrite Forall_forall in Gp. destruct (C69_distance per boxes y x Gb Ne Ll (Gp y Iy) (Gp x Ix)) as (F & D0 & W & _). unfold flt. rewrite Bltb_correct by (auto; reflexivity).
  apply Rlt_bool_true. change (B2R fzero) with 0. destruct (Rle_lt_or_eq_dec _ _ D0) as [L|L]; auto. exfalso. rewrite <- L, Rplus_0_l in W. apply Df. apply within_sym. exact W. Qed.
Theorem C73_ballistic : forall le order eorder per boxes fs positions c, any_order (le_order le) -> any_order order -> any_order eorder ->
  good_clustering boxes fs positions -> moderate_boxes boxes -> moderate_coordinates positions -> In c (fcreate_clusters order eorder per boxes fs positions) ->
  (forall x, In x (g_nodes c) -> exists y, has_edge c x y /\ clearly_different per boxes x y) ->
  exists r, fevaluate_line_ballistic le per boxes fs c = Ok r /\ fline_along per boxes fs c r /\
    forall u v, has_edge r u v -> 0 < B2R (fdist per boxes u v) \/ 0 < B2R (fdist per boxes v u).
Proof. intros le order eorder per boxes fs positions c Le HO EO GC Mb Mc Ic Sp. pose proof (gc_finite boxes fs positions GC) as P. pose proof GC as (Gb & Ne & Ll & _ & Gp).
  pose proof (fcluster_wf order eorder per boxes fs positions HO EO P c Ic) as W. pose proof (C69_partition order eorder per boxes fs positions HO EO GC) as (_ & _ & Pos & _).
  rewrite Forall_forall in Gp. unfold moderate_coordinates in Mc. rewrite Forall_forall in Mc.
  destruct (double_ballistic_ok le per boxes fs c Gb Ll Mb W) as (r & E & R1 & R2 & R3 & R4).
  - intros p Ip. split; [apply Gp|apply Mc]; eapply Pos; eauto.
  - intros x Ix. destruct (Sp x Ix) as (y & Ey & Dy). exists y. split; auto. destruct (wf_ends W Ey) as (_ & Iy). eapply clearly_step; eauto.
  - exact Le.
  - exists r. split; [exact E|]. split; [eapply line_in_cluster; eauto|].
    assert (K : forall u v, In u (g_nodes c) -> In v (g_nodes c) -> fstep per boxes u v -> 0 < B2R (fdist per boxes u v)).
    { intros u v Iu Iv S. unfold fstep, flt in S. destruct (C69_distance per boxes v u Gb Ne Ll (Gp v (Pos c v Ic Iv)) (Gp u (Pos c u Ic Iu))) as (F & _). rewrite Bltb_correct in S by (auto; reflexivity). change (B2R fzero) with 0 in S. destruct (Rlt_bool_spec 0 (B2R (fdist per boxes u v))); [auto|discriminate]. }
    intros u v X. destruct R2 as (R2 & R2'). destruct (wf_ends W (R2' u v X)) as (Iu & Iv). destruct (R4 u v X) as [S|S]; [left|right]; apply K; auto. Qed.
Print Assumptions C73_ballistic.

(** *** Where this fails: in the periodic box [0, 1] with feature size 1/4, the position 0.0 is linked to
    its image 1.0 only, because 1/4 + 2^-54 is further from 0.0 but, after rounding, not from 1.0.
    The cluster is a line; started at 0.0, where there is no direction, the ballistic method raises
    AssertionError, which ends the identification. *)
Definition c73_fs : double := of_dyadic 1 (-2).
Definition c73_positions : list (list double) := [[fzero]; [fone]; [of_dyadic (2 ^ 52 + 1) (-54)]].
Definition c73_env : line_env := mk_line_env (fun l => l) (fun _ _ _ => None) (fun x _ => fmul x x) fnorm (fun _ _ _ => fone) (fun _ _ _ => fone) fsum_left.
Lemma unit_good (fs : double) ps : is_finite fs = true -> Forall (fun p => exists x, p = [x] /\ is_finite x = true /\ 0 <= B2R x <= 1) ps -> good_clustering ex_boxes fs ps.
Proof. intros F P. destruct ex_size as (Es & El). split; [apply ex_boxes_good|]. split; [discriminate|]. split; [cbn; lia|]. split; [exact F|]. eapply Forall_impl; [|exact P]. intros p (x & -> & Fx & Bx). constructor; [|constructor]. split; [exact Fx|]. rewrite Es. cbn [fst]. rewrite El. change (bpow radix2 10) with 1024. rewrite Rminus_0_r, Rabs_pos_eq by lra. lra. Qed.
Lemma fone_unit : is_finite fone = true /\ B2R fone = 1.
Proof. destruct (of_dyadic_val 1 0 ltac:(lia) ltac:(lia)) as (F & V). assert (E : fone = of_dyadic 1 0) by (apply B2SF_inj; vm_compute; reflexivity). rewrite E. split; [exact F|]. rewrite V. cbn. ring. Qed.
Theorem C73_assertion_refuted : good_clustering ex_boxes c73_fs c73_positions /\ moderate_boxes ex_boxes /\ moderate_coordinates c73_positions /\
  good_fenvironment simple_fenv /\ total_svd (fe_svd simple_fenv) /\ any_order (le_order c73_env) /\
  frun_from_positions (with_line simple_fenv (fevaluate_line c73_env true ex_boxes c73_fs FBallistic)) true ex_boxes c73_fs c73_positions = Err AssertionError.
Proof. destruct (of_dyadic_val (2 ^ 52 + 1) (-54) ltac:(lia) ltac:(lia)) as (Fz & Vz). destruct fone_unit as (F1 & V1).
  assert (Bz : 0 <= IZR (2 ^ 52 + 1) * bpow radix2 (-54) <= 1) by (replace (bpow radix2 (-54)) with (/ IZR (2 ^ 54)) by reflexivity; cbn; lra). rewrite <- Vz in Bz.
  assert (P : Forall (fun p : list double => exists x, p = [x] /\ is_finite x = true /\ 0 <= B2R x <= 1) c73_positions).
  { constructor; [exists fzero; split; [reflexivity|]; split; [reflexivity|cbn; lra]|]. constructor; [exists fone; split; [reflexivity|]; split; [exact F1|rewrite V1; lra]|]. constructor; [|constructor]. eexists. split; [reflexivity|]. split; [exact Fz|exact Bz]. }
  split; [apply unit_good; [vm_compute; reflexivity|exact P]|]. split; [constructor; [|constructor]; cbn [fst snd]; rewrite V1; cbn [B2R]; rewrite Rabs_R0, Rabs_R1; change (bpow radix2 20) with 1048576; lra|].
  split; [eapply Forall_impl; [|exact P]; intros p (x & -> & _ & Bx); constructor; [|constructor]; rewrite Rabs_pos_eq by apply Bx; change (bpow radix2 20) with 1048576; lra|].
  split; [apply simple_fenv_good|]. split; [intros m _ _; cbn [fe_svd simple_fenv]; destruct m as [|? [|? ?]]; eauto|]. split; [intros l; apply Permutation_refl|].
  assert (E : match frun_from_positions (with_line simple_fenv (fevaluate_line c73_env true ex_boxes c73_fs FBallistic)) true ex_boxes c73_fs c73_positions with Err AssertionError => true | _ => false end = true) by (vm_compute; reflexivity).
  destruct (frun_from_positions _ _ _ _ _) as [|[]]; try discriminate. reflexivity. Qed.
Print Assumptions C73_assertion_refuted.

(** *** The whole identification: no exception; one object for each cluster, with the positions of
    the cluster; a point for dimension 0; for dimension 1 a line as above (connected with the
    shortest-path method); nothing for higher or undetermined dimensions.  For the ballistic method, different
    positions must be clearly different. *)
Theorem C73_identified : forall le env per boxes (fs : double) m M positions, good_line_env le -> good_fenvironment env -> total_svd (fe_svd env) ->
  good_clustering boxes fs positions -> moderate_size M boxes fs positions -> 0 < B2R fs ->
  (m = FBallistic -> forall x y, In x positions -> In y positions -> same_place x y \/ clearly_different per boxes x y) ->
  exists objects, frun_from_positions (with_line env (fevaluate_line le per boxes fs m)) per boxes fs positions = Ok objects /\
    Forall2 (fobject_of per boxes fs (fun r => m = FShortestPath -> connected r)) (fcreate_clusters (fe_order env) (fe_edges env) per boxes fs positions) objects.
Proof. intros le env per boxes fs m M positions Le Env Svd GC Ms Fp Dif. unfold frun_from_positions. change (fe_order (with_line env (fevaluate_line le per boxes fs m))) with (fe_order env). change (fe_edges (with_line env (fevaluate_line le per boxes fs m))) with (fe_edges env).
  assert (HO : any_order (fe_order env)) by apply Env. assert (EO : any_order (fe_edges env)) by apply Env. pose proof (gc_finite boxes fs positions GC) as Pf. pose proof (C69_partition (fe_order env) (fe_edges env) per boxes fs positions HO EO GC) as (_ & _ & Pos & Nes).
  pose proof GC as (Gb & Nb & Lb & Ff & Gp). pose proof Ms as (HM & Uf & Hb & Hp & Ln). rewrite Forall_forall in Gp, Hp.
  assert (Mp : forall p, In p positions -> moderate_pos boxes p). { intros p Ip. split; [apply Gp; exact Ip|]. eapply Forall_impl; [|apply Hp; exact Ip]. intros x Hx. eapply Rle_trans; [exact Hx|exact HM]. }
  assert (Mc : moderate_coordinates positions) by (apply Forall_forall; intros p Ip; apply (Mp p Ip)).
  set (E := with_line env (fevaluate_line le per boxes fs m)). assert (Ge : good_fenvironment E) by exact Env. assert (Se : total_svd (fe_svd E)) by exact Svd.
  assert (K : forall c, In c (fcreate_clusters (fe_order env) (fe_edges env) per boxes fs positions) -> exists i, fidentify_cluster E per boxes fs c = Ok i /\ fobject_of per boxes fs (fun r => m = FShortestPath -> connected r) c i).
  { intros c Ic. pose proof (fcluster_wf (fe_order env) (fe_edges env) per boxes fs positions HO EO Pf c Ic) as W. destruct (Nes c Ic) as (Ne & _). assert (Mpc : forall p, In p (g_nodes c) -> moderate_pos boxes p) by (intros p Ip; apply Mp; eapply Pos; eauto).
    destruct (dimension_total E per boxes fs c Gb Lb Hb Mpc W Ge Se Ne) as (o & Eo & O3 & O0). unfold fidentify_cluster. rewrite Eo. cbn [bind]. destruct o as [d|].
    2:{ cbn [fevaluate_cluster bind]. eexists. split; [reflexivity|]. split; reflexivity. }
    pose proof (O3 d eq_refl) as Ld. destruct d as [|[|d]].
    - cbn [fevaluate_cluster]. destruct (average_total E per boxes c Gb Lb Hb Mpc Ne) as (a & Ea & La). rewrite Ea. cbn [bind]. eexists. split; [reflexivity|]. split; [reflexivity|]. cbn [fi_dimension fi_shape]. exists a. auto.
    - cbn [fevaluate_cluster]. assert (L : exists r, fe_line E c = Ok r /\ fline_along per boxes fs c r /\ (m = FShortestPath -> connected r)).
      { unfold E. cbn [with_line fe_line]. destruct m; cbn [fevaluate_line].
        - destruct (C73_ballistic le (fe_order env) (fe_edges env) per boxes fs positions c) as (r & Er & Rl & _); auto; [apply Le| |exists r; split; [exact Er|]; split; [exact Rl|discriminate]].
          intros x Ix. assert (Y : exists y, has_edge c x y).
          { destruct (neighbors c x) as [|y l] eqn:En; [|exists y; apply in_neighbors; rewrite En; left; reflexivity]. exfalso. assert (No : forall u v, ~ has_edge c u v).
            { intros u v Euv. destruct (wf_ends W Euv) as (Iu & _). destruct (fcluster_connected (fe_order env) (fe_edges env) per boxes fs positions c HO EO GC Ic x u Ix Iu) as (p & F & Lp). destruct p as [|z p].
              - cbn in Lp. subst u. apply in_neighbors in Euv. rewrite En in Euv. destruct Euv.
              - destruct F as (F & _). apply in_neighbors in F. rewrite En in F. destruct F. }
            discriminate (O0 No 1%nat eq_refl). }
          destruct Y as (y & Ey). exists y. split; [exact Ey|]. destruct (wf_ends W Ey) as (_ & Iy). destruct (Dif eq_refl x y (Pos c x Ic Ix) (Pos c y Ic Iy)) as [Sp|D]; [|exact D]. exfalso.
          assert (x = y) by (apply (us_place (fe_order env) boxes fs positions HO GC); auto; eapply fcluster_in; eauto). subst y. apply (fcluster_edges (fe_order env) (fe_edges env) per boxes fs positions HO EO Pf c x x Ic Ix) in Ey.
          destruct Ey as [(B & _)|(B & _)]; apply before_neq in B; auto; apply fus_nodup; auto.
        - destruct (C73_shortest_path le (fe_order env) (fe_edges env) per boxes fs positions c) as (r & Er & Rl & Cr); auto. exists r. auto. }
      destruct L as (r & Er & Rl & Cr). rewrite Er. cbn [bind]. eexists. split; [reflexivity|]. split; [reflexivity|]. cbn [fi_dimension fi_shape]. exists r. auto.
    - cbn [fevaluate_cluster bind]. eexists. split; [reflexivity|]. split; [reflexivity|]. cbn [fi_dimension fi_shape]. destruct d as [|[|d]]; try reflexivity. exfalso. clear - Ld. lia. }
  clear - K. induction (fcreate_clusters (fe_order env) (fe_edges env) per boxes fs positions) as [|c cl IH]; [exists []; split; [reflexivity|constructor]|].
  destruct (K c (or_introl eq_refl)) as (i & Ei & Oi). destruct IH as (is & Eis & Ois); [intros c' Ic; apply K; right; exact Ic|]. exists (i :: is). cbn [map sequence]. rewrite Ei. cbn [bind]. rewrite Eis. cbn [bind]. split; [reflexivity|]. constructor; auto. Qed.
Print Assumptions C73_identified.

(** *** A search from scratch followed by identify.run, at any time of the search. *)
Theorem C73_search : forall g p evals raises Q s k le env m feature_size M, good_fconfig g -> good_fstart g s [] [] Q [] -> fproper g Q ->
  fsearch g p evals raises s k -> (forall y v, evals y v -> v <> nan) -> fg_gap g <> nan -> fg_boxes g <> [] -> good_line_env le -> good_fenvironment env -> total_svd (fe_svd env) ->
  let positions := map dr_pos (cl_flat (fc_nodes (fs_result (fk_state k)))) in
  let fs : double := match feature_size with Some fs => fs | None => fmul (fg_cutoff g) dthree end in
  is_finite fs = true -> 0 < B2R fs -> moderate_size M (fg_boxes g) fs positions ->
  (m = FBallistic -> forall x y, In x positions -> In y positions -> same_place x y \/ clearly_different (fg_per g) (fg_boxes g) x y) ->
  exists objects, fidentify_run (with_line env (fevaluate_line le (fg_per g) (fg_boxes g) fs m)) (fs_result (fk_state k)) feature_size = Ok objects /\
    Forall2 (fobject_of (fg_per g) (fg_boxes g) fs (fun r => m = FShortestPath -> connected r)) (fcreate_clusters (fe_order env) (fe_edges env) (fg_per g) (fg_boxes g) fs positions) objects.
Proof. intros g p evals raises Q s k le env m feature_size M GC GS PS Sr N Ng Nb Le GE Sv positions fs Ff Fp Ms Dif.
  destruct (fsearch_facts g p evals raises GC [] [] Q [] s GS PS k Sr) as (R & _).
  destruct (i_hist _ _ _ _ _ _ (proj1 (reach_kinv g [] [] Q [] GC s k GS R))) as (A1 & A2 & A3 & A4 & A5 & A6 & A7).
  destruct (history_good _ _ _ _ A1 _ _ _ A7 A5 A6) as (E1 & E2 & _ & E4 & _). cbn [mst fst snd] in E1, E2, E4.
  unfold fidentify_run. rewrite E1, E2, E4. fold positions.
  assert (Pos : forall x, In x positions -> good_position (fg_boxes g) x).
  { intros x Hx. unfold positions in Hx. apply in_map_iff in Hx as (n & <- & Hn).
    destruct (C67_nodes_evaluated g p evals raises [] [] Q [] s k GC GS PS Sr N Ng n Hn) as [(r0 & [] & _)|(_ & _ & y & v & _ & _ & W & Im & Ip)].
    destruct (fg_per g); [|rewrite Ip; apply fwithin_good; auto]. clear - A1 Ip. revert A1 Ip. generalize (dr_pos n). induction (fg_boxes g) as [|b bs IH]; intros q G H; inversion H; subst; constructor.
    + apply in_box_good; auto. exact (Forall_inv G).
    + apply IH; auto. exact (Forall_inv_tail G). }
  apply (C73_identified le env (fg_per g) (fg_boxes g) fs m M positions); auto. split; [exact A1|]. split; [exact Nb|]. split; [exact A2|]. split; [exact Ff|]. apply Forall_forall. exact Pos. Qed.
Print Assumptions C73_search.

(** hypotheses met: a line of four positions around the periodic box [0, 1]; its dimension is 1 *)
Definition simple_le : line_env := mk_line_env (fun l => l) (fun g => some_spath (map_attr (fun _ => 0) g)) (fun x _ => fmul x x) fnorm (fun _ _ _ => fone) (fun _ _ _ => fone) fsum_left.
Lemma simple_le_good : good_line_env simple_le.
Proof. split; [intros l; apply Permutation_refl|]. split.
  - intros g u v W _ Iu Iv. cbn [le_spath simple_le]. assert (Ed : forall x y, has_edge (map_attr (fun _ : double => 0) g) x y <-> has_edge g x y) by (intros; apply map_attr_edges).
    pose proof (some_spath_good (map_attr (fun _ : double => 0) g) u v (wf_map_attr _ _ W)) as H. destruct (some_spath (map_attr (fun _ : double => 0) g) u v) as [p|].
    + destruct H as ((q & E & F & L) & _); auto; [intros e I; cbn in I; apply in_map_iff in I as (e0 & <- & _); cbn; lra|]. exists q. split; [exact E|]. split; [|exact L]. clear - Ed F. revert u F. induction q as [|z q IH]; intros u; cbn; auto. intros (A & B). split; [apply Ed; exact A|auto].
    + intros X. apply H; auto; [intros e I; cbn in I; apply in_map_iff in I as (e0 & <- & _); cbn; lra|]. eapply linked_mono; [|exact X]. intros x y E. apply Ed. exact E.
  - intros x H. cbn [le_pow simple_le]. apply (proj1 (nonneg_cases x)) in H as [->|(F & P)]; [reflexivity|]. destruct (Rle_lt_or_eq_dec _ _ P) as [L|L]; [apply nonneg_mul; auto; apply nonneg_cases; auto|].
    destruct x as [sg| | |sg m e B]; try discriminate; [destruct sg; reflexivity|]. exfalso. symmetry in L. unfold val in L. apply (F2R_neq_0 radix2 (Float radix2 (cond_Zopp sg (Zpos m)) e)); [destruct sg; discriminate|exact L]. Qed.
Definition c73_line : list (list double) := [d1 0 (-2); d1 1 (-2); d1 2 (-2); d1 3 (-2)].
Theorem C73_hypotheses_met : good_line_env simple_le /\ good_fenvironment simple_fenv /\ total_svd (fe_svd simple_fenv) /\ good_clustering ex_boxes c73_fs c73_line /\ moderate_size 1 ex_boxes c73_fs c73_line /\ moderate_boxes ex_boxes /\ moderate_coordinates c73_line /\ 0 < B2R c73_fs /\
  (forall x y, In x c73_line -> In y c73_line -> same_place x y \/ clearly_different true ex_boxes x y) /\
  (exists c, fcreate_clusters (fe_order simple_fenv) (fe_edges simple_fenv) true ex_boxes c73_fs c73_line = [c] /\ length (g_nodes c) = 4%nat /\ fcalculate_dimension simple_fenv true ex_boxes c73_fs c = Ok (Some 1%nat) /\
    (forall x, In x (g_nodes c) -> exists y, has_edge c x y /\ clearly_different true ex_boxes x y)) /\
  exists s k, let positions := map dr_pos (cl_flat (fc_nodes (fs_result (fk_state k)))) in let fs : double := fmul (fg_cutoff run_g) dthree in
    good_fconfig run_g /\ good_fstart run_g s [] [] (map norm_fsimplex ex_mesh) [] /\ fproper run_g (map norm_fsimplex ex_mesh) /\ fsearch run_g run_p run_evals run_raises s k /\ length positions = 4%nat /\ (forall y v, run_evals y v -> v <> nan) /\ fg_gap run_g <> nan /\ fg_boxes run_g <> [] /\
    is_finite fs = true /\ 0 < B2R fs /\ moderate_size 1 (fg_boxes run_g) fs positions.
Proof. destruct ex_size as (Es & El). destruct (of_dyadic_val 1 (-2) ltac:(lia) ltac:(lia)) as (Ff & Vf). change (bpow radix2 (-2)) with (/ 4) in Vf. rewrite Rmult_1_l in Vf. fold c73_fs in Ff, Vf. destruct fone_unit as (F1 & V1).
  assert (Q : forall x, In x c73_line -> exists n, (0 <= n <= 3)%Z /\ x = d1 n (-2)) by (intros x [<-|[<-|[<-|[<-|[]]]]]; eexists; (split; [|reflexivity]); lia).
  assert (V : forall n, (0 <= n <= 3)%Z -> is_finite (of_dyadic n (-2)) = true /\ B2R (of_dyadic n (-2)) = IZR n / 4) by (intros n Hn; destruct (of_dyadic_val n (-2) ltac:(lia) ltac:(lia)) as (A & B); split; [exact A|exact B]).
  assert (P : Forall (fun p : list double => exists x, p = [x] /\ is_finite x = true /\ 0 <= B2R x <= 1) c73_line).
  { apply Forall_forall. intros x Hx. destruct (Q x Hx) as (n & Hn & ->). destruct (V n Hn) as (A & B). eexists. split; [reflexivity|]. split; [exact A|]. rewrite B. destruct Hn as (H0 & H3). apply IZR_le in H0, H3. lra. }
  assert (Mb : moderate_boxes ex_boxes) by (constructor; [|constructor]; cbn [fst snd]; rewrite V1; cbn [B2R]; rewrite Rabs_R0, Rabs_R1; change (bpow radix2 20) with 1048576; lra).
  assert (Mc : Forall (Forall (fun x : double => Rabs (B2R x) <= 1)) c73_line) by (eapply Forall_impl; [|exact P]; intros p (x & -> & _ & Bx); constructor; [|constructor]; rewrite Rabs_pos_eq by apply Bx; lra).
  assert (D : forall x y, In x c73_line -> In y c73_line -> x <> y -> clearly_different true ex_boxes x y).
  { intros x y Hx Hy Ne W. destruct (Q x Hx) as (n & Hn & ->). destruct (Q y Hy) as (k & Hk & ->). apply within_place_iff in W. unfold place, d1 in W. cbn [map] in W. rewrite (proj2 (V n Hn)), (proj2 (V k Hk)) in W.
    assert (B : 0 <= dist_error ex_boxes 0 <= / 1024). { unfold dist_error, total_size. cbn [ex_boxes map fold_right]. rewrite Es. change (bpow radix2 (-39)) with (/ 549755813888). lra. }
    apply within_unit in W; [|lra]. destruct W as (j & W). assert (Z : (n - k - 4 * j)%Z <> 0%Z) by (intros X; apply Ne; assert (n = k) by lia; subst; reflexivity).
    assert (A : 1 <= Rabs (IZR (n - k - 4 * j))) by (rewrite <- abs_IZR; apply IZR_le; lia). rewrite !minus_IZR, mult_IZR in A. apply Rabs_le_inv in W. unfold Rabs in A. destruct (Rcase_abs _); lra. }
  split; [apply simple_le_good|]. split; [apply simple_fenv_good|]. split; [intros m _ _; cbn [fe_svd simple_fenv]; destruct m as [|? [|? ?]]; eauto|]. pose proof (unit_good c73_fs c73_line Ff P) as GC. split; [exact GC|].
  split. { split; [change (bpow radix2 20) with 1048576; lra|]. split; [rewrite Vf; change (bpow radix2 20) with 1048576; lra|]. split; [exact Mb|]. split; [exact Mc|]. apply Nat.leb_le. vm_compute. reflexivity. }
  split; [exact Mb|]. split; [eapply Forall_impl; [|exact Mc]; intros p; apply Forall_impl; intros x H; change (bpow radix2 20) with 1048576; lra|]. split; [rewrite Vf; lra|].
  split; [intros x y Hx Hy; destruct (list_eq_dec eq_dec x y) as [->|Ne]; [left; apply same_place_refl|right; apply D; auto]|]. split.
  { set (cl := fcreate_clusters (fe_order simple_fenv) (fe_edges simple_fenv) true ex_boxes c73_fs c73_line). assert (Lc : (length cl =? 1)%nat = true) by (vm_compute; reflexivity). assert (Ic : forall c, In c cl -> In c (fcreate_clusters (fe_order simple_fenv) (fe_edges simple_fenv) true ex_boxes c73_fs c73_line)) by exact (fun c H => H).
    assert (Ln : forallb (fun c => length (g_nodes c) =? 4)%nat cl = true) by (vm_compute; reflexivity). assert (Dm : forallb (fun c => match fcalculate_dimension simple_fenv true ex_boxes c73_fs c with Ok (Some 1%nat) => true | _ => false end) cl = true) by (vm_compute; reflexivity).
    assert (Nb : forallb (fun c => forallb (fun x => match neighbors c x with [] => false | _ => true end) (g_nodes c)) cl = true) by (vm_compute; reflexivity).
    clearbody cl. destruct cl as [|c [|? ?]]; try discriminate Lc. exists c. split; [reflexivity|]. cbn [forallb] in Ln, Dm, Nb. rewrite andb_true_r in Ln, Dm, Nb. split; [apply Nat.eqb_eq; exact Ln|]. split; [destruct (fcalculate_dimension simple_fenv true ex_boxes c73_fs c) as [[[|[|d]]|]|]; try discriminate Dm; reflexivity|].
    specialize (Ic c (or_introl eq_refl)). intros x Ix. rewrite forallb_forall in Nb. specialize (Nb x Ix). destruct (neighbors c x) as [|y l] eqn:En; [discriminate|]. exists y. assert (Ey : has_edge c x y) by (apply in_neighbors; rewrite En; left; reflexivity). split; [exact Ey|].
    assert (HO : any_order (fe_order simple_fenv)) by (intros l0; apply Permutation_refl). assert (EO : any_order (fe_edges simple_fenv)) by (intros l0; apply Permutation_refl). pose proof (gc_finite ex_boxes c73_fs c73_line GC) as Pf.
    pose proof (C69_partition (fe_order simple_fenv) (fe_edges simple_fenv) true ex_boxes c73_fs c73_line HO EO GC) as (_ & _ & Pos & _). pose proof (fcluster_wf (fe_order simple_fenv) (fe_edges simple_fenv) true ex_boxes c73_fs c73_line HO EO Pf c Ic) as W. destruct (wf_ends W Ey) as (_ & Iy).
    apply D; [exact (Pos c x Ic Ix)|exact (Pos c y Ic Iy)|]. intros ->. apply (fcluster_edges (fe_order simple_fenv) (fe_edges simple_fenv) true ex_boxes c73_fs c73_line HO EO Pf c y y Ic Ix) in Ey. pose proof (fus_nodup (fe_order simple_fenv) c73_line HO Pf) as Nu. destruct Ey as [(B & _)|(B & _)]; exact (before_neq _ y y Nu B eq_refl). }
  destruct C72_search_hypotheses_met as (s & k & H1 & H2 & H3 & H4 & _ & H6 & H7 & H8 & H9 & _ & H11 & H12 & _). exists s, k. cbv zeta in *. split; [exact H1|]. split; [exact H2|]. split; [exact H3|]. split; [exact H4|]. split; [exact H6|]. split; [exact H7|]. split; [exact H8|]. split; [exact H9|]. split; [exact H11|]. split; [|exact H12].
  assert (E : (fmul (fg_cutoff run_g) dthree : double) = of_dyadic 3 (-2)) by (apply B2SF_inj; vm_compute; reflexivity). rewrite E. rewrite (proj2 (V 3%Z ltac:(lia))). lra. Qed.
Print Assumptions C73_hypotheses_met.
