(** Property theorems C72: the identification of isolated nodes in double precision.

    [frun_from_positions env per boxes fs positions] (FloatIdentify.v) is
    identify.run_from_positions in IEEE double precision; [env] contains what the code does not
    determine: set order, random choices, the order in which numpy adds, the singular values.
    [within per boxes p c d]: the exact distance of the real positions [p] and [c] is at most [d]. *)
From Coq Require Import ZArith Reals Psatz List Permutation.
From Flocq Require Import Core BinarySingleNaN.
From Verif Require Import Base BaseFacts CoordSys Graph SpecGraph GraphFacts SpecCluster CellList Queue QueueFacts SpecQueue Dimension Float FloatFacts FloatVector FloatVectorFacts NelderMead FloatMin FloatOrder SpecFloatMin FloatMinFacts FloatMinProps FloatMinExtra
  FloatCell SpecFloatCell FloatCellNum FloatCellFacts FloatDistNum FloatStepNum FloatStepFacts PropFloatCell FloatCheck FloatController SpecFloatSearch SpecFloatRun FloatSearchFacts FloatSearchSteps FloatSearchLog FloatSearchProps FloatSearchStart PropFloatSearch FloatSearchExample FloatGenuine FloatRunExample PropFloatRun
  FloatCluster SpecFloatCluster FloatClusterFacts PropFloatCluster FloatIdentify SpecFloatIdentify FloatSumFacts FloatAverage FloatIdentifyFacts FloatIdentifyExample.
From Coq Require Import Lra.
Import ListNotations.
Open Scope list_scope.
Open Scope R_scope.

(** *** Positions gathered around isolated centres: whatever the order of the sets, the random
    choices of the libraries and the order of the additions, the identification returns exactly one
    object for each centre that has positions near it; it is a nodal point within [r] of the centre
    (up to the rounding error), made of the positions near the centre. *)
Theorem C72_identified : forall env per boxes (fs : double) M r centres positions,
  good_fenvironment env -> good_clustering boxes fs positions -> moderate_size M boxes fs positions -> fisolated per boxes fs r centres positions ->
  exists objects found, frun_from_positions env per boxes fs positions = Ok objects /\
    Forall2 (fpoint_at per boxes r M positions) found objects /\ NoDup found /\
    forall c, In c found <-> In c centres /\ exists x, In x positions /\ within per boxes (place x) c r.
Proof. exact fisolated_points. Qed.
Print Assumptions C72_identified.

(** *** The average of positions near a centre is near it, up to the rounding error, and inside
    the box [0, size] if it is periodic. *)
Theorem C72_average : forall env per boxes M r c positions, (forall l, summed l (fe_column_sum env l)) -> Forall good_box boxes -> (length boxes <= 64)%nat ->
  M <= bpow radix2 20 -> Forall (fun b => Rabs (B2R (fst b)) <= bpow radix2 20 /\ Rabs (B2R (snd b)) <= bpow radix2 20) boxes ->
  Forall (good_position boxes) positions -> Forall (Forall (fun x => Rabs (B2R x) <= M)) positions -> positions <> [] -> (length positions <= 2 ^ 20)%nat ->
  length c = length boxes -> 0 <= r -> (per = true -> Forall (fun b => 2 * r <= fbox_size b / 2 - bpow radix2 (-32) * fbox_size b) boxes) ->
  (forall p, In p positions -> within per boxes (place p) c r) ->
  exists a, faverage env per boxes positions = Ok a /\ length a = length boxes /\ Forall (fun x => is_finite x = true) a /\
    within per boxes (place a) c (r + place_error boxes M (length positions)) /\ (per = true -> Forall2 (fun b x => 0 <= B2R x <= fbox_size b) boxes a).
Proof. intros env per boxes M r c positions Col Gb Lb HM Hb Gp Hp Ne Ln Lc R0 Rs Near. apply (average_accurate env per boxes M r c positions); auto.
  intros E i Hi. pose proof (Rs E) as F. rewrite Forall_forall in F. apply (F _ (nth_In boxes nob Hi)). Qed.
Print Assumptions C72_average.

(** *** A search from scratch, in double precision, for a potential whose values do not exceed the gap
    threshold only within [r] of isolated centres, followed by identify.run: the identified objects
    are nodal points, one for each centre that a minimization has ended at, and nothing else. *)
Lemma image_within per boxes c y x r : length c = length boxes -> 0 <= r -> image_of boxes y x -> (per = false -> x = y) -> within per boxes (place y) c r -> within per boxes (place x) c (r + total_norm_error boxes).
Proof. intros Lc R0 (Ly & Lx & Im) Np W. assert (Ly' : length (place y) = length boxes) by (unfold place; rewrite map_length; exact Ly). assert (Lx' : length (place x) = length boxes) by (unfold place; rewrite map_length; exact Lx).
  assert (J : forall i, (i < length boxes)%nat -> exists j, (per = false -> j = 0%Z) /\ Rabs (val (nth i x (B754_zero false)) - (val (nth i y (B754_zero false)) + IZR j * sz boxes i)) <= norm_error (nth i boxes nob)).
  { intros i Hi. destruct (Im i (nth i boxes nob) (nth i y (B754_zero false)) (nth i x (B754_zero false))) as (j & Hj); [apply nth_error_nth'; exact Hi|apply nth_error_nth'; rewrite Ly; exact Hi|apply nth_error_nth'; rewrite Lx; exact Hi|].
    destruct per; [exists j; split; [discriminate|exact Hj]|]. exists 0%Z. split; auto. rewrite (Np eq_refl). replace (val (nth i y (B754_zero false)) - (val (nth i y (B754_zero false)) + 0 * sz boxes i)) with 0 by ring. rewrite Rabs_R0. eapply Rle_trans; [apply Rabs_pos|exact Hj]. }
  destruct (choose_nat _ _ J) as (j & Hj). apply within_off in W as (k & Zk & Hk); auto. apply within_off; auto. exists (fun i => if per then (k i + j i)%Z else 0%Z). split; [intros E i; rewrite E; reflexivity|].
  assert (Es : total_norm_error boxes = rs (length boxes) (fun i => norm_error (nth i boxes nob))) by (unfold total_norm_error; clear; induction boxes as [|b boxes IH]; [reflexivity|]; cbn [map fold_right length]; rewrite rs_succ, IH; reflexivity).
  eapply Rle_trans; [apply (rs_triangle _ _ (off boxes (place y) c k) (fun i => norm_error (nth i boxes nob)))|].
  - intros i Hi. destruct (Hj i Hi) as (Z & B). unfold off. rewrite !nth_place. destruct per.
    + rewrite plus_IZR. match goal with |- Rabs ?u <= _ => match type of B with Rabs ?v <= _ => replace u with v by ring end end. exact B.
    + rewrite (Zk eq_refl). rewrite (Z eq_refl) in B. match goal with |- Rabs ?u <= _ => match type of B with Rabs ?v <= _ => replace u with v by ring end end. exact B.
  - rewrite <- Es. apply pow_incr. split.
    + apply Rplus_le_le_0_compat; [apply sqrt_pos|]. rewrite Es. apply rs_nonneg. intros i Hi. destruct (Hj i Hi) as (_ & B). eapply Rle_trans; [apply Rabs_pos|exact B].
    + apply Rplus_le_compat_r. apply rs_sq_bound; auto. Qed.
Theorem C72_search : forall g p evals raises Q s k env feature_size M r centres, good_fconfig g -> good_fstart g s [] [] Q [] -> fproper g Q ->
  fsearch g p evals raises s k -> (forall y v, evals y v -> v <> nan) -> fg_gap g <> nan -> fg_boxes g <> [] -> good_fenvironment env ->
  let positions := map dr_pos (cl_flat (fc_nodes (fs_result (fk_state k)))) in
  let fs : double := match feature_size with Some fs => fs | None => fmul (fg_cutoff g) dthree end in
  let r' := r + total_norm_error (fg_boxes g) in
  is_finite fs = true -> moderate_size M (fg_boxes g) fs positions -> 0 <= r -> fisolated (fg_per g) (fg_boxes g) fs r' centres [] ->
  (forall y v, evals y v -> fwithin 9 (fg_boxes g) y -> dle v (fg_gap g) = true -> exists c, In c centres /\ within (fg_per g) (fg_boxes g) (place y) c r) ->
  exists objects found, fidentify_run env (fs_result (fk_state k)) feature_size = Ok objects /\
    Forall2 (fpoint_at (fg_per g) (fg_boxes g) r' M positions) found objects /\ NoDup found /\
    forall c, In c found <-> In c centres /\ exists x, In x positions /\ within (fg_per g) (fg_boxes g) (place x) c r'.
Proof. intros g p evals raises Q s k env feature_size M r centres GC GS PS Sr N Ng Nb GE positions fs r' Ff Ms R0 Iso Near.
  destruct (fsearch_facts g p evals raises GC [] [] Q [] s GS PS k Sr) as (R & _).
  destruct (i_hist _ _ _ _ _ _ (proj1 (reach_kinv g [] [] Q [] GC s k GS R))) as (A1 & A2 & A3 & A4 & A5 & A6 & A7).
  destruct (history_good _ _ _ _ A1 _ _ _ A7 A5 A6) as (E1 & E2 & _ & E4 & _). cbn [mst fst snd] in E1, E2, E4.
  unfold fidentify_run. rewrite E1, E2, E4. fold positions.
  assert (Pos : forall x, In x positions -> good_position (fg_boxes g) x /\ exists c, In c centres /\ within (fg_per g) (fg_boxes g) (place x) c r').
  { intros x Hx. unfold positions in Hx. apply in_map_iff in Hx as (n & <- & Hn).
    destruct (C67_nodes_evaluated g p evals raises [] [] Q [] s k GC GS PS Sr N Ng n Hn) as [(r0 & [] & _)|(_ & Lg & y & v & Ev & Sv & W & Im & Ip)].
    assert (Lv : dle v (fg_gap g) = true) by (destruct (same_number_cases _ _ Sv) as [X|(s1 & s2 & X1 & X2)]; [rewrite <- X; exact Lg|rewrite X1 in Lg; rewrite X2; rewrite <- Lg; destruct (fg_gap g) as [[]|[]| |[] ? ? ?], s1, s2; reflexivity]).
    destruct (Near y v Ev W Lv) as (c & Hc & Wc). split.
    - destruct (fg_per g); [|rewrite Ip; apply fwithin_good; auto]. clear - A1 Ip. revert A1 Ip. generalize (dr_pos n). induction (fg_boxes g) as [|b bs IH]; intros q G H; inversion H; subst; constructor.
      + apply in_box_good; auto. exact (Forall_inv G).
      + apply IH; auto. exact (Forall_inv_tail G).
    - exists c. split; [exact Hc|]. unfold r'. apply (image_within (fg_per g) (fg_boxes g) c y); auto.
      + destruct Iso as (X & _). rewrite Forall_forall in X. auto.
      + intros E. rewrite E in Ip. exact Ip. }
  apply C72_identified; auto.
  - split; [exact A1|]. split; [exact Nb|]. split; [exact A2|]. split; [exact Ff|]. apply Forall_forall. intros x Hx. apply (proj1 (Pos x Hx)).
  - destruct Iso as (I1 & I2 & I3 & I4 & I5 & _). repeat (split; auto). intros x Hx. apply (proj2 (Pos x Hx)). Qed.
Print Assumptions C72_search.

(** hypotheses met: [simple_fenv] (FloatIdentifyExample.v) is an environment as required; in the
    periodic box [0, 1] with feature size 1/4, the positions 1/64 and 63/64 are near the centre 0
    (across the boundary), and 1/2 is the other centre. *)
Lemma within_unit x c d : 0 <= d -> within true ex_boxes [x] [c] d <-> exists k, Rabs (x - c - IZR k) <= d.
Proof. intros D. destruct ex_size as (Es & _). split.
  - intros (ks & L & _ & H). destruct ks as [|k [|? ?]]; try discriminate. exists k. cbn [image_sq ex_boxes] in H. rewrite Es, Rmult_1_r, Rplus_0_r in H. rewrite <- (Rabs_pos_eq d D). apply Rsqr_le_abs_0. unfold Rsqr. lra.
  - intros (k & H). exists [k]. split; [reflexivity|]. split; [discriminate|]. cbn [image_sq ex_boxes]. rewrite Es, Rmult_1_r, Rplus_0_r. rewrite <- (Rabs_pos_eq d D) in H. apply Rsqr_le_abs_1 in H. unfold Rsqr in H. lra. Qed.
Lemma ex_slack (fs : double) : 0 <= val fs <= 1 -> 0 <= slack ex_boxes fs <= / 64.
Proof. intros H. destruct ex_size as (Es & _). unfold slack, total_size. cbn [ex_boxes map fold_right]. rewrite Es. change (bpow radix2 (-25)) with (/ 33554432). lra. Qed.
Definition c72_fs : double := of_dyadic 1 (-2).
Definition c72_positions : list (list double) := [d1 1 (-6); d1 63 (-6); d1 1 (-1)].
Definition c72_centres : list (list R) := [[0]; [/ 2]].
Lemma d1_place m e : (-1074 <= e < 900)%Z -> (Z.abs m <= 2 ^ 53)%Z -> place (d1 m e) = [IZR m * bpow radix2 e].
Proof. intros A B. unfold place, d1. cbn [map]. rewrite (proj2 (of_dyadic_val m e A B)). reflexivity. Qed.
Theorem C72_hypotheses_met : good_fenvironment simple_fenv /\ good_clustering ex_boxes c72_fs c72_positions /\ moderate_size 1 ex_boxes c72_fs c72_positions /\
  fisolated true ex_boxes c72_fs (/ 64) c72_centres c72_positions /\
  (forall c, In c c72_centres <-> In c c72_centres /\ exists x, In x c72_positions /\ within true ex_boxes (place x) c (/ 64)).
Proof. destruct ex_size as (Es & El). destruct (of_dyadic_val 1 (-2) ltac:(lia) ltac:(lia)) as (Ff & Vf). change (bpow radix2 (-2)) with (/ 4) in Vf. rewrite Rmult_1_l in Vf. fold c72_fs in Ff, Vf.
  assert (P : Forall (fun x => exists u, x = [u] /\ is_finite u = true /\ 0 <= B2R u <= 1) c72_positions).
  { assert (G : forall m e, (-6 <= e <= -1)%Z -> (0 <= m <= 63)%Z -> 0 <= IZR m * bpow radix2 e <= 1 -> exists u : double, d1 m e = [u] /\ is_finite u = true /\ 0 <= B2R u <= 1).
    { intros m e A B C. exists (of_dyadic m e). destruct (of_dyadic_val m e ltac:(lia) ltac:(lia)) as (F & V). split; [reflexivity|]. split; [exact F|]. rewrite V. exact C. }
    repeat constructor; apply G; try lia; change (bpow radix2 (-6)) with (/ 64); change (bpow radix2 (-1)) with (/ 2); lra. }
  pose proof (ex_slack c72_fs ltac:(rewrite Vf; lra)) as Sl.
  split; [apply simple_fenv_good|]. split.
  { split; [apply ex_boxes_good|]. split; [discriminate|]. split; [cbn; lia|]. split; [exact Ff|]. eapply Forall_impl; [|exact P]. intros x (u & -> & Fu & Bu). constructor; [|constructor]. split; [exact Fu|]. rewrite Es. cbn [fst]. rewrite El. change (bpow radix2 10) with 1024. rewrite Rminus_0_r, Rabs_pos_eq by lra. lra. }
  split.
  { change (bpow radix2 20) with 1048576. split; [change (bpow radix2 20) with 1048576; lra|]. split; [rewrite Vf; change (bpow radix2 20) with 1048576; lra|]. split.
    - constructor; [|constructor]. cbn [fst snd]. rewrite El. assert (Vo : B2R fone = 1) by (unfold fone; destruct (of_dyadic_val 1 0 ltac:(lia) ltac:(lia)) as (_ & V); etransitivity; [|exact (eq_trans V (Rmult_1_l 1))]; f_equal; apply B2SF_inj; vm_compute; reflexivity).
      rewrite Vo, Rabs_R0, Rabs_R1. change (bpow radix2 20) with 1048576. lra.
    - split; [eapply Forall_impl; [|exact P]; intros x (u & -> & Fu & Bu); constructor; [rewrite Rabs_pos_eq by apply Bu; apply Bu|constructor]|]. apply Nat.leb_le. vm_compute. reflexivity. }
  assert (W : forall x, In x c72_positions -> exists c, In c c72_centres /\ within true ex_boxes (place x) c (/ 64)).
  { intros x [<-|[<-|[<-|[]]]]; rewrite d1_place by lia.
    - exists [0]. split; [left; auto|]. apply within_unit; [lra|]. exists 0%Z. change (bpow radix2 (-6)) with (/ 64). apply Rabs_le. lra.
    - exists [0]. split; [left; auto|]. apply within_unit; [lra|]. exists 1%Z. change (bpow radix2 (-6)) with (/ 64). apply Rabs_le. lra.
    - exists [/ 2]. split; [right; left; auto|]. apply within_unit; [lra|]. exists 0%Z. change (bpow radix2 (-1)) with (/ 2). apply Rabs_le. lra. }
  split.
  - split; [repeat constructor|]. split; [lra|]. split; [rewrite Vf; lra|]. split; [intros _; constructor; [rewrite Es, Vf; lra|constructor]|]. split; [|exact W].
    assert (A : forall k, ~ Rabs (/ 2 - IZR k) <= / 4 + 2 * / 64 + / 64). { intros k H. rewrite abs_le in H. destruct (Z_le_gt_dec k 0) as [K|K]; [apply IZR_le in K; lra|]. assert (K' : (1 <= k)%Z) by lia. apply IZR_le in K'. lra. }
    intros c d [<-|[<-|[]]] [<-|[<-|[]]] Ne; try (elim Ne; reflexivity); intros X; apply within_unit in X; try (rewrite Vf; lra); destruct X as (k & X); rewrite Vf in X.
    + apply (A (- k)%Z). rewrite opp_IZR. replace (/ 2 - - IZR k) with (- (0 - / 2 - IZR k)) by ring. rewrite Rabs_Ropp. lra.
    + apply (A k). replace (/ 2 - IZR k) with (/ 2 - 0 - IZR k) by ring. lra.
  - intros c. split; [|tauto]. intros Hc. split; [exact Hc|]. destruct Hc as [<-|[<-|[]]].
    + exists (d1 1 (-6)). split; [left; auto|]. rewrite d1_place by lia. apply within_unit; [lra|]. exists 0%Z. change (bpow radix2 (-6)) with (/ 64). apply Rabs_le. lra.
    + exists (d1 1 (-1)). split; [right; right; left; auto|]. rewrite d1_place by lia. apply within_unit; [lra|]. exists 0%Z. change (bpow radix2 (-1)) with (/ 2). apply Rabs_le. lra. Qed.
Print Assumptions C72_hypotheses_met.

(** hypotheses met for a search: the one of C67 ([run_g], FloatRunExample.v: the potential is the
    computed distance from 1/4 in the periodic box [0, 1], with gap threshold 1/16; four nodes
    are found), identified with the default feature size. *)
Lemma sf_list_inj (x : fpoint) : forall y : fpoint, map B2SF x = map B2SF y -> x = y.
Proof. induction x as [|a x IH]; intros [|b y] H; try discriminate; [reflexivity|]. cbn [map] in H. injection H as H1 H2. apply B2SF_inj in H1. apply IH in H2. rewrite H1, H2. reflexivity. Qed.
Definition c72_r : R := / 16 + bpow radix2 (-38).
Theorem C72_search_hypotheses_met : exists s k, let positions := map dr_pos (cl_flat (fc_nodes (fs_result (fk_state k)))) in
  let fs : double := fmul (fg_cutoff run_g) dthree in
  good_fconfig run_g /\ good_fstart run_g s [] [] (map norm_fsimplex ex_mesh) [] /\ fproper run_g (map norm_fsimplex ex_mesh) /\
  fsearch run_g run_p run_evals run_raises s k /\ fk_phase k = FReturned /\ length positions = 4%nat /\ (forall y v, run_evals y v -> v <> nan) /\ fg_gap run_g <> nan /\ fg_boxes run_g <> [] /\ good_fenvironment simple_fenv /\
  is_finite fs = true /\ moderate_size 1 (fg_boxes run_g) fs positions /\ 0 <= c72_r /\ fisolated (fg_per run_g) (fg_boxes run_g) fs (c72_r + total_norm_error (fg_boxes run_g)) [[/ 4]] [] /\
  (forall y v, run_evals y v -> fwithin 9 (fg_boxes run_g) y -> dle v (fg_gap run_g) = true -> exists c, In c [[/ 4]] /\ within (fg_per run_g) (fg_boxes run_g) (place y) c c72_r).
Proof. destruct C67_hypotheses_met as (s & k & _). destruct (run_inv _ _ run_computed) as (s' & k' & E & R & C1 & C2). clear s k.
  destruct ex_mesh_good as (M1 & M2). destruct (C64_fresh_start run_g (fun l => l) ex_mesh false run_g_good M1 M2) as (s1 & E' & G & _).
  rewrite E in E'. injection E' as <-. exists s', k'. destruct ex_size as (Es & El).
  assert (Vfs : fmul (fg_cutoff run_g) dthree = of_dyadic 3 (-2)) by (apply B2SF_inj; vm_compute; reflexivity).
  destruct (of_dyadic_val 3 (-2) ltac:(lia) ltac:(lia)) as (Ff & Vf). change (bpow radix2 (-2)) with (/ 4) in Vf. cbv zeta. change (fmul (fg_cutoff run_g) dthree) with (fmul (fg_cutoff run_g) dthree : double). rewrite Vfs.
  split; [apply run_g_good|]. split; [exact G|]. split; [apply run_proper|]. split; [apply (run_honest s' run_events (fstart s')); [constructor|exact R]|]. split.
  { unfold fsummary in C1. pose proof (f_equal (fun l => nth 6 l 0%nat) C1) as X. cbn [nth] in X. destruct (fk_phase k') as [| | |[]]; try discriminate; reflexivity. }
  split; [apply (f_equal (@List.length _)) in C2; rewrite !map_length in C2; rewrite map_length; exact C2|]. split.
  { intros y v ->. unfold run_f. destruct y as [|c [|? ?]]; try discriminate. cbv zeta. destruct (is_nan _) eqn:Nn; [discriminate|]. intros X. rewrite X in Nn. discriminate. }
  split; [discriminate|]. split; [discriminate|]. split; [apply simple_fenv_good|]. split; [exact Ff|].
  assert (P : Forall (fun x => exists u, x = [u] /\ 0 <= B2R u <= 1) (map dr_pos (cl_flat (fc_nodes (fs_result (fk_state k')))))).
  { apply Forall_forall. intros x Hx. assert (Hx' : In (map B2SF x) (map (fun d : fpoint => map B2SF d) [d1 1 (-2); d1 1 (-2); d1 1 (-2); d1 31 (-7)])) by (rewrite <- C2; apply in_map_iff in Hx as (n & <- & Hn); apply in_map_iff; exists n; auto).
    pose proof (sf_list_inj x) as I.
    assert (Q : x = d1 1 (-2) \/ x = d1 31 (-7)) by (cbn [map In] in Hx'; destruct Hx' as [H|[H|[H|[H|[]]]]]; symmetry in H; apply I in H; auto).
    destruct (of_dyadic_val 1 (-2) ltac:(lia) ltac:(lia)) as (_ & V1). destruct (of_dyadic_val 31 (-7) ltac:(lia) ltac:(lia)) as (_ & V2). change (bpow radix2 (-2)) with (/ 4) in V1. change (bpow radix2 (-7)) with (/ 128) in V2.
    destruct Q as [-> | ->]; eexists; (split; [reflexivity|]); [rewrite V1|rewrite V2]; lra. }
  split.
  { split; [change (bpow radix2 20) with 1048576; lra|]. split; [rewrite Vf; change (bpow radix2 20) with 1048576; lra|]. split.
    - constructor; [|constructor]. cbn [fst snd]. rewrite El. assert (Vo : B2R fone = 1) by (unfold fone; destruct (of_dyadic_val 1 0 ltac:(lia) ltac:(lia)) as (_ & V); etransitivity; [|exact (eq_trans V (Rmult_1_l 1))]; f_equal; apply B2SF_inj; vm_compute; reflexivity).
      rewrite Vo, Rabs_R0, Rabs_R1. change (bpow radix2 20) with 1048576. lra.
    - split; [eapply Forall_impl; [|exact P]; intros x (u & -> & Bu); constructor; [rewrite Rabs_pos_eq by apply Bu; apply Bu|constructor]|].
      apply (f_equal (@List.length _)) in C2. rewrite !map_length in C2. rewrite map_length. replace (length (cl_flat (fc_nodes (fs_result (fk_state k'))))) with 4%nat by (symmetry; exact C2). apply Nat.leb_le. vm_compute. reflexivity. }
  pose proof (bpow_gt_0 radix2 (-38)) as P38. assert (B38 : bpow radix2 (-38) <= / 1048576) by (change (/ 1048576) with (bpow radix2 (-20)); apply bpow_le; lia).
  assert (R0 : 0 <= c72_r) by (unfold c72_r; lra). split; [exact R0|].
  assert (T : 0 <= total_norm_error (fg_boxes run_g) <= bpow radix2 (-38)).
  { unfold total_norm_error, norm_error. cbn [run_g fg_boxes ex_boxes map fold_right fst]. rewrite Es, El, Rabs_R0, Rmult_0_r, Rmult_1_r, !Rplus_0_r. split; [apply bpow_ge_0|apply bpow_le; lia]. }
  pose proof (ex_slack (of_dyadic 3 (-2)) ltac:(rewrite Vf; lra)) as Sl. split.
  { split; [repeat constructor|]. split; [lra|]. split; [rewrite Vf; unfold c72_r in *; cbn [run_g fg_boxes] in *; lra|]. split; [intros _; constructor; [rewrite Es, Vf; lra|constructor]|]. split; [|intros x []].
    intros c d [<-|[]] [<-|[]] Ne. elim Ne; reflexivity. }
  intros y v Ev W L. exists [/ 4]. split; [left; auto|]. destruct (run_f_F y v Ev W) as (Fv & Bv).
  assert (Fg : is_finite (fg_gap run_g) = true /\ B2R (fg_gap run_g) = / 16). { destruct (of_dyadic_val 1 (-4) ltac:(lia) ltac:(lia)) as (A & B). split; [exact A|]. etransitivity; [exact B|]. change (bpow radix2 (-4)) with (/ 16). ring. } destruct Fg as (Fg & Vg).
  unfold dle in L. rewrite Bleb_correct in L by auto. pose proof (Rle_bool_spec (B2R v) (B2R (fg_gap run_g))) as X. rewrite L in X. assert (Lv : B2R v <= / 16) by (rewrite <- Vg; inversion X; auto).
  inversion W as [|b u bs y' (Fu & _) W']; subst. inversion W'; subst. unfold run_F in Bv. cbn [map hd] in Bv. destruct (int_dist_ex (B2R u - / 4)) as (j & Ej). rewrite Ej in Bv. cbn [run_g fg_per fg_boxes place map]. apply within_unit; [exact R0|]. exists j.
  assert (B39 : bpow radix2 (-39) <= bpow radix2 (-38)) by (apply bpow_le; lia). unfold c72_r. rewrite abs_le in Bv. lra. Qed.
Print Assumptions C72_search_hypotheses_met.
