(** C77: identification tells points and lines apart, in double precision. *)
From Coq Require Import ZArith Reals Psatz List Permutation.
From Coquelicot Require Import Hierarchy RInt Continuity.
From Flocq Require Import Core BinarySingleNaN.
From Verif Require Import Base BaseFacts CoordSys CoordSysR Graph SpecGraph GraphFacts SpecCluster ClusterFacts Dimension SpecVolume VolumeMean Float FloatFacts FloatVector FloatVectorFacts FloatMin FloatCell SpecFloatCell FloatCellNum FloatCellFacts FloatDistNum FloatStepNum FloatStepFacts PropFloatVector
  FloatController SpecFloatSearch SpecFloatRun FloatSearchFacts FloatSearchSteps FloatSearchLog FloatSearchProps FloatSearchStart PropFloatSearch FloatGenuine FloatRunExample PropFloatRun CellList Queue FloatMinProps PropFloatCell FloatCluster SpecFloatCluster FloatClusterFacts PropFloatCluster FloatIdentify SpecFloatIdentify FloatSumFacts FloatAverage FloatIdentifyFacts FloatSearchExample FloatIdentifyExample PropFloatIdentify FloatLine SpecFloatLine FloatLineNum FloatLineFacts FloatIdentifyTotal PropFloatLine SpecFloatDim VolumeReal FloatDimNum FloatDimFacts PropFloatDim SpecFloatGroups FloatStrand.
From Coq Require Import Lra.
Import ListNotations.
Open Scope list_scope.
Open Scope R_scope.

(** one place is not apart from itself *)
Lemma place_close per boxes x y d : 0 <= d -> same_place x y -> within_dist per boxes x y d.
Proof. intros D S. exists (map (fun _ => 0%Z) boxes). split; [apply map_length|]. split; [intros _; clear; induction boxes; constructor; auto|].
  assert (E : image_dist_sq boxes x y (map (fun _ => 0%Z) boxes) = 0); [|rewrite E; nra].
  revert boxes. induction S as [|a b x y Ea S IH]; intros [|bx boxes]; cbn [map image_dist_sq]; auto. rewrite IH, Ea. ring. Qed.

Section Groups.
  Variables (le : line_env) (env : fenvironment) (per : bool) (boxes : list (double * double)) (fs : double) (m : fmethod) (M : R) (positions : list (list double)) (groups : list (list (list double) * kind)).
  Hypothesis Le : good_line_env le.
  Hypothesis St : dim_setting env per boxes fs M positions.
  Hypothesis Cov : forall x, In x positions <-> exists g, In g groups /\ In x (fst g).
  Hypothesis Nes : forall g, In g groups -> fst g <> [].
  Hypothesis Ap : forall i j g h x y, nth_error groups i = Some g -> nth_error groups j = Some h -> i <> j -> In x (fst g) -> In y (fst h) -> surely_apart per boxes fs x y.
  Hypothesis Kd : forall ps k, In (ps, k) groups -> match k with
    | Spot c r => spot per boxes fs ps c r
    | Strand => strand per boxes fs ps /\ forall x, In x ps -> accurate_svds (fe_svd env) per boxes ps x end.
  Let E := with_line env (fevaluate_line le per boxes fs m).
  Notation clusters := (fcreate_clusters (fe_order env) (fe_edges env) per boxes fs positions).

  Lemma hEnv : good_fenvironment env. Proof. apply St. Qed.
  Lemma hO : any_order (fe_order env). Proof. apply hEnv. Qed.
  Lemma hEO : any_order (fe_edges env). Proof. apply hEnv. Qed.
  Lemma hGC : good_clustering boxes fs positions. Proof. apply St. Qed.
  Lemma hMs : moderate_size M boxes fs positions. Proof. apply St. Qed.
  Lemma hfs : 0 < B2R fs. Proof. destruct St as (_ & _ & _ & _ & _ & Fs). eapply Rlt_le_trans; [apply (bpow_gt_0 radix2 (-100))|exact Fs]. Qed.
  Lemma herr : 0 <= B2R fs + dist_error boxes (B2R fs).
  Proof. pose proof hfs. destruct hGC as (Gb & _). pose proof (error_nonneg boxes (B2R fs) Gb ltac:(lra)). lra. Qed.

  Lemma same_index i j g h x y : nth_error groups i = Some g -> nth_error groups j = Some h -> In x (fst g) -> In y (fst h) -> ~ surely_apart per boxes fs x y -> i = j.
  Proof. intros Ei Ej Ix Iy N. destruct (Nat.eq_dec i j) as [|D]; auto. exfalso. apply N. apply (Ap i j g h); auto. Qed.
  Lemma indexed x : In x positions -> exists i g, nth_error groups i = Some g /\ In x (fst g).
  Proof. intros I. apply Cov in I as (g & Ig & Ix). apply In_nth_error in Ig as (i & Ei). eauto. Qed.
  Lemma node_position c x : In c clusters -> In x (g_nodes c) -> In x positions.
  Proof. intros Ic Ix. destruct (C69_partition (fe_order env) (fe_edges env) per boxes fs positions hO hEO hGC) as (_ & _ & Pos & _). eapply Pos; eauto. Qed.
  Lemma group_position g x : In g groups -> In x (fst g) -> In x positions. Proof. intros. apply Cov. eauto. Qed.

  (** the positions of a spot are surely close *)
  Lemma spot_close ps c r x y : In (ps, Spot c r) groups -> In x ps -> In y ps -> surely_close per boxes fs x y.
  Proof. intros Ig Ix Iy. destruct (Kd _ _ Ig) as (L & R0 & R8 & Bx & Wi).
    assert (Ip : forall z, In z [x; y] -> In z ps) by (intros z [<-|[<-|[]]]; auto). assert (Ipp : forall z, In z [x; y] -> In z positions) by (intros z Hz; apply (group_position (ps, Spot c r)); auto).
    assert (GC : good_clustering boxes fs [x; y]). { destruct hGC as (A & B & C & D & F). repeat (split; auto). apply Forall_forall. rewrite Forall_forall in F. auto. }
    assert (Ms : moderate_size M boxes fs [x; y]). { destruct hMs as (A & B & C & D & F). split; [exact A|]. split; [exact B|]. split; [exact C|]. split; [apply Forall_forall; rewrite Forall_forall in D; auto|]. apply Nat.leb_le. vm_compute. reflexivity. }
    assert (Iso : fisolated per boxes fs r [c] [x; y]). { split; [constructor; auto|]. split; [exact R0|]. split; [exact R8|]. split; [exact Bx|]. split; [intros a b [<-|[]] [<-|[]]; congruence|]. intros z Hz. exists c. split; [left; reflexivity|]. apply Wi; auto. }
    apply (same_close per boxes fs M r [c] [x; y] GC Ms Iso x y c); cbn; auto. Qed.
  (** every cluster is one of the groups *)
  Lemma cluster_group c : In c clusters -> exists i g, nth_error groups i = Some g /\ (forall x, In x (g_nodes c) -> In x (fst g)) /\ forall x, In x (fst g) -> in_cluster c x.
  Proof. intros Ic. destruct (C69_partition (fe_order env) (fe_edges env) per boxes fs positions hO hEO hGC) as (_ & _ & Pos & Ne). destruct (Ne c Ic) as (Nc & _).
    assert (X : exists x, In x (g_nodes c)) by (destruct (g_nodes c) as [|x l]; [congruence|exists x; left; reflexivity]). destruct X as (x & Ix). destruct (indexed x (Pos c x Ic Ix)) as (i & g & Ei & Ig). exists i, g. split; auto. split.
    - intros y Iy. pose proof (C69_connected (fe_order env) (fe_edges env) per boxes fs positions x y c hO hEO hGC Ic Ix Iy) as L.
      refine (linked_closed (fun z => In z (fst g)) _ L Ig). intros a b Ia (_ & Ib & Na). destruct (indexed b (Pos c b Ic Ib)) as (j & h & Ej & Ih). pose proof (same_index i j g h a b Ei Ej Ia Ih Na) as Eij. subst j. congruence.
    - intros y Iy. assert (Gi : In g groups) by (eapply nth_error_In; eauto). destruct g as (ps & k). cbn [fst] in *.
      assert (L : linked (fun a b => In a ps /\ In b ps /\ surely_close per boxes fs a b) x y).
      { destruct k as [ctr r|]; [|destruct (Kd ps Strand Gi) as ((_ & _ & Ch & _) & _); apply Ch; auto]. apply linked_one. split; auto. split; auto. apply (spot_close ps ctr r); auto. }
      refine (linked_closed (fun z => in_cluster c z) _ L _); [|exists x; split; auto; apply same_place_refl].
      intros a b Ha (Ia & Ib & Cl). apply (C69_close_together (fe_order env) (fe_edges env) per boxes fs positions a b c hO hEO hGC); auto; apply (group_position (ps, k)); auto. Qed.

  Lemma position_ne p : In p positions -> (length p <? 1)%nat = false.
  Proof. intros Ip. destruct hGC as (_ & Nb & _ & _ & Gp). pose proof (len_p boxes positions Gp p Ip) as L. destruct p as [|x p]; [|reflexivity]. exfalso. apply Nb. destruct boxes; [reflexivity|discriminate]. Qed.
  (** a cluster around a point *)
  Lemma spot_identified g c r : In g clusters -> length c = length boxes -> 0 <= r -> 8 * r + slack boxes fs <= B2R fs -> (per = true -> Forall (fun b => B2R fs < 2 * fbox_size b) boxes) ->
    (forall x, In x (g_nodes g) -> within per boxes (place x) c r) ->
    exists a, fidentify_cluster E per boxes fs g = Ok (mk_fident (g_nodes g) (Some 0%nat) (Some (FNodalPoint a))) /\ length a = length boxes /\ Forall (fun x => is_finite x = true) a /\
      within per boxes (place a) c (r + place_error boxes M (length (g_nodes g))) /\ (per = true -> Forall2 (fun b x => 0 <= B2R x <= fbox_size b) boxes a).
  Proof. intros Ig Lc R0 R8 Bx Wc. assert (GE : good_fenvironment E) by exact hEnv. pose proof hGC as GC. pose proof hMs as Ms.
    assert (W : wf_graph g) by (apply (fcluster_wf (fe_order env) (fe_edges env) per boxes fs positions hO hEO (gc_finite boxes fs positions GC) g Ig)).
    assert (Nd : NoDup (g_nodes g)) by apply W. assert (Nn : g_nodes g <> []) by (destruct (C69_partition (fe_order env) (fe_edges env) per boxes fs positions hO hEO hGC) as (_ & _ & _ & Ne); apply (Ne g Ig)).
    destruct (cluster_nodup E per boxes fs M positions GE GC Ms g Ig) as (_ & _ & Ln). destruct (moderate_sub E per boxes fs M positions GE GC Ms g Ig) as (Hp & Gp).
    destruct GC as (Gb & Nb & Lb & Ff & Gpos). destruct Ms as (HM & Uf & Hb & Hpos & Lpos).
    assert (D0 : fcalculate_dimension E per boxes fs g = Ok (Some 0%nat)).
    { assert (Sh : any_order (fe_shuffle E g)) by apply GE. unfold fcalculate_dimension. pose proof (Sh (g_nodes g)) as Pm. set (sh := fe_shuffle E g (g_nodes g)) in *.
      assert (Lsh : length sh = length (g_nodes g)) by (apply Permutation_length; first [exact Pm|apply Permutation_sym; exact Pm]). refine (count_zero _ 5 sh 0 0 _ _ _ _ eq_refl).
      - apply le_n_S, Nat.le_0_l.
      - intros p Ip'. assert (Ip : In p (g_nodes g)) by (eapply Permutation_in; [exact Pm|exact Ip']). destruct (tuples_ok E per boxes fs M positions GE hGC hMs g p Ig) as (Ts & Lt).
        destruct (tuples_false E per boxes fs M r c (g_nodes g) Gb Nb Lb GE HM (conj Ff Uf) Hb Hp Ln Gp Lc R0 R8 Bx Wc p Ip (fe_tuples E g p 1) [] [] Ts (Forall_nil _) Lt) as (u & Eu).
        unfold fget_dimension. cbn [fget_dimension_from]. unfold fhas_dimension. rewrite (position_ne p (node_position g p Ig Ip)). cbn [fexact_value]. rewrite Eu. reflexivity.
      - cbn [Nat.add]. rewrite Lsh. exact Ln.
      - cbn [Nat.add]. rewrite Lsh. destruct (g_nodes g); [congruence|]. apply le_n_S, Nat.le_0_l. }
    unfold fidentify_cluster. rewrite D0. cbn [bind fevaluate_cluster]. assert (Col : forall l, summed l (fe_column_sum E l)) by apply GE.
    destruct (average_accurate E per boxes M r c (g_nodes g) Gb Lb Col HM Hb Hp Ln Nn Gp Lc R0 (r_half per boxes fs r Gb Nb Lb (conj Ff Uf) Hb R0 R8 Bx) Wc) as (A & EA & LA & FA & WA & IA).
    rewrite EA. cbn [bind]. exists A. auto. Qed.

  Lemma edge_adjacent c x y : In c clusters -> has_edge c x y -> adjacent per boxes fs x y.
  Proof. intros Ic Ey. destruct (C69_edges (fe_order env) (fe_edges env) per boxes fs positions x y c hO hEO hGC Ic Ey) as (_ & _ & w & _ & _ & _ & Bw & Wt & _). unfold adjacent.
    eapply within_mono; [|exact Wt]. destruct hGC as (Gb & _). split; [apply Rplus_le_le_0_compat; [apply Bw|apply error_nonneg; [exact Gb|apply Bw]]|]. apply Rplus_le_compat; [apply Bw|apply error_mono; apply Bw]. Qed.
  Lemma edge_places c x y : In c clusters -> has_edge c x y -> ~ same_place x y.
  Proof. intros Ic Ey Sp. pose proof (gc_finite boxes fs positions hGC) as Pf. pose proof (fcluster_wf (fe_order env) (fe_edges env) per boxes fs positions hO hEO Pf c Ic) as W. destruct (wf_ends W Ey) as (Ix & Iy).
    assert (x = y) by (apply (us_place (fe_order env) boxes fs positions hO hGC); auto; eapply fcluster_in; eauto using hO). subst y. apply (fcluster_edges (fe_order env) (fe_edges env) per boxes fs positions hO hEO Pf c x x Ic Ix) in Ey.
    destruct Ey as [(B & _)|(B & _)]; apply before_neq in B; auto; apply fus_nodup; auto using hO. Qed.
  (** a cluster along a line *)
  Lemma strand_identified c ps : In c clusters -> strand per boxes fs ps -> (forall x, In x ps -> accurate_svds (fe_svd env) per boxes ps x) ->
    (forall x, In x (g_nodes c) -> In x ps) -> (forall x, In x ps -> in_cluster c x) ->
    exists l, fidentify_cluster E per boxes fs c = Ok (mk_fident (g_nodes c) (Some 1%nat) (Some (FNodalLine l))) /\ fline_along per boxes fs c l /\ (m = FShortestPath -> connected l).
  Proof. intros Ic (Two & Far & _ & Nr) Sv Sub Sup. pose proof (gc_finite boxes fs positions hGC) as Pf. pose proof (fcluster_wf (fe_order env) (fe_edges env) per boxes fs positions hO hEO Pf c Ic) as W. pose proof hfs as Fp.
    assert (Nb : forall x, In x (g_nodes c) -> exists y, In y (neighbors c x)).
    { intros x Ix. destruct (Two x (Sub x Ix)) as (y & Iy & Ny). destruct (Sup y Iy) as (y' & Iy' & Sy).
      destruct (fcluster_connected (fe_order env) (fe_edges env) per boxes fs positions c hO hEO hGC Ic x y' Ix Iy') as (p & F & Lp). destruct p as [|z p]; [cbn in Lp; subst y'; exfalso; apply Ny; apply same_place_sym; exact Sy|]. destruct F as (F & _). exists z. apply in_neighbors. exact F. }
    assert (Fr : forall x y, In x (g_nodes c) -> In y (neighbors c x) -> ~ within_dist per boxes x y ((1 + bpow radix2 (-16)) * (B2R fs / 4))).
    { intros x y Ix Iy. apply in_neighbors in Iy. destruct (wf_ends W Iy) as (_ & Iy'). destruct (Far x y (Sub x Ix) (Sub y Iy')) as [S|N]; auto. exfalso. apply (edge_places c x y Ic Iy S). }
    assert (SE : dim_setting E per boxes fs M positions) by exact St.
    destruct (C74_line E per boxes fs M positions c SE Ic) as (_ & Ln).
    { intros p Ip. destruct (Nr p (Sub p Ip)) as (u & Lu & Nu). split; [|split; [|split; [|split]]].
      - assert (Nn : forall y, In y (neighbors c p) -> In y (g_nodes c)) by (intros y Iy; apply in_neighbors in Iy; destruct (wf_ends W Iy) as (_ & Iy'); exact Iy').
        assert (Ln : forall y, In y (g_nodes c) -> length y = length boxes) by (intros y Iy; destruct hGC as (_ & _ & _ & _ & Gp); apply (len_p boxes positions Gp), (node_position c); auto).
        assert (Gs : Forall (fun b => 0 < fbox_size b) boxes) by (destruct hGC as (Gb & _); eapply Forall_impl; [|exact Gb]; intros b (_ & _ & _ & _ & _ & Sz); eapply Rlt_le_trans; [apply (bpow_gt_0 radix2 (-400))|exact Sz]).
        assert (Ts : bpow radix2 (-15) * total_size boxes <= B2R fs) by apply St. assert (T0 : 0 <= total_size boxes) by (unfold total_size; clear - Gs; induction Gs as [|b l Hb F IH]; cbn [map fold_right]; lra).
        change (bpow radix2 (-15)) with (/ 32768) in Ts. apply (along_line per boxes p u (B2R fs / 15) (B2R fs * 1.1) ((1 + bpow radix2 (-16)) * (B2R fs / 4)) (neighbors c p)); auto; try (change (bpow radix2 (-16)) with (/ 65536); lra).
        + intros i j y z Ey Ez Ne. assert (Iy : In y (g_nodes c)) by (apply Nn; eapply nth_error_In; eauto). assert (Iz : In z (g_nodes c)) by (apply Nn; eapply nth_error_In; eauto).
          destruct (Far y z (Sub y Iy) (Sub z Iz)) as [S|N]; [|exact N]. exfalso. apply Ne. assert (y = z) by (apply (us_place (fe_order env) boxes fs positions hO hGC); auto; eapply fcluster_in; eauto using hO). subst z.
          assert (Nd : NoDup (neighbors c p)) by apply (nodup_neighbors W). rewrite NoDup_nth_error in Nd. apply Nd; [apply nth_error_Some; rewrite Ey; discriminate|congruence].
        + intros y v Iy Lv. pose proof Iy as Ey. apply in_neighbors in Ey. pose proof (edge_adjacent c p y Ic Ey) as Ad. split; [apply (Nu y v); auto; apply (edge_places c); auto|].
          destruct Lv as (_ & Lv). eapply Rle_trans; [apply (Lv _ herr Ad)|]. unfold dist_error. change (bpow radix2 (-43)) with (/ 8796093022208). change (bpow radix2 (-39)) with (/ 549755813888). change (bpow radix2 (-38)) with (/ 274877906944). lra.
      - intros t vs Nt It Lt Lb F. apply (Sv p (Sub p Ip) t vs Nt); auto. intros y Iy. apply It in Iy. apply in_neighbors in Iy. destruct (wf_ends W Iy) as (_ & Iy'). apply Sub. exact Iy'.
      - exact (Nb p Ip).
      - intros q Iq. apply Fr; auto.
      - exists u. split; auto. intros q v Iq Lv. apply in_neighbors in Iq. destruct (wf_ends W Iq) as (_ & Iq'). apply (Nu q v); auto; [apply (edge_places c); auto|apply (edge_adjacent c); auto]. }
    assert (L : exists r, fe_line E c = Ok r /\ fline_along per boxes fs c r /\ (m = FShortestPath -> connected r)).
    { unfold E. cbn [with_line fe_line]. destruct m; cbn [fevaluate_line].
      - destruct hMs as (HM & Uf & Hb & Hp & _). assert (Mc : moderate_coordinates positions). { apply Forall_forall. intros p Ip. rewrite Forall_forall in Hp. eapply Forall_impl; [|apply Hp; exact Ip]. intros x Hx. eapply Rle_trans; [exact Hx|exact HM]. }
        destruct (C73_ballistic le (fe_order env) (fe_edges env) per boxes fs positions c (proj1 Le) hO hEO hGC Hb Mc Ic) as (r & Er & Rl & _); [|exists r; split; [exact Er|]; split; [exact Rl|discriminate]].
        intros x Ix. destruct (Nb x Ix) as (y & Iy). exists y. split; [apply in_neighbors; exact Iy|]. intros Wt. apply (Fr x y Ix Iy). eapply within_mono; [|exact Wt].
        destruct St as (_ & _ & _ & _ & Ts & _). unfold dist_error. destruct hGC as (Gb & _). pose proof (error_nonneg boxes 0 Gb (Rle_refl 0)) as E0. unfold dist_error in E0. split; [exact E0|]. rewrite Rmult_0_r, Rplus_0_l.
        assert (P39 : bpow radix2 (-39) = bpow radix2 (-15) * bpow radix2 (-24)) by (rewrite <- bpow_plus; reflexivity). rewrite P39. pose proof (bpow_gt_0 radix2 (-16)). assert (Q : bpow radix2 (-24) <= / 4) by (change (/ 4) with (bpow radix2 (-2)); apply bpow_le; lia). pose proof (bpow_gt_0 radix2 (-24)). pose proof (bpow_gt_0 radix2 (-15)).
        replace (bpow radix2 (-15) * bpow radix2 (-24) * total_size boxes) with (bpow radix2 (-24) * (bpow radix2 (-15) * total_size boxes)) by ring.
        apply Rle_trans with (bpow radix2 (-24) * B2R fs); [apply Rmult_le_compat_l; lra|]. apply Rle_trans with (/ 4 * B2R fs); [apply Rmult_le_compat_r; lra|]. nra.
      - destruct (C73_shortest_path le (fe_order env) (fe_edges env) per boxes fs positions c Le hO hEO hGC Fp Ic) as (r & Er & Rl & Cr). exists r. auto. }
    destruct L as (l & El & Rl & Cl). exists l. split; [apply Ln; exact El|]. auto. Qed.

  Lemma group_identified c : In c clusters -> exists i g o, nth_error groups i = Some g /\ (forall x, In x (g_nodes c) -> In x (fst g)) /\ (forall x, In x (fst g) -> in_cluster c x) /\
    fidentify_cluster E per boxes fs c = Ok o /\ identified_as per boxes fs m M (fst g) (snd g) o.
  Proof. intros Ic. destruct (cluster_group c Ic) as (i & (ps & k) & Ei & Sub & Sup). cbn [fst snd] in *. exists i, (ps, k). assert (Gi : In (ps, k) groups) by (eapply nth_error_In; eauto). pose proof (Kd ps k Gi) as K. destruct k as [ctr r|].
    - destruct K as (Lc & R0 & R8 & Bx & Wi). destruct (spot_identified c ctr r Ic Lc R0 R8 Bx) as (a & Ea & A1 & A2 & A3 & A4); [intros; apply Wi, Sub; auto|]. eexists. split; [exact Ei|]. split; [exact Sub|]. split; [exact Sup|]. split; [exact Ea|].
      split; [exact Sub|]. split; [exact Sup|]. cbn [fi_dimension fi_shape fi_positions]. split; [reflexivity|]. exists a. auto.
    - destruct K as (Sd & Sv). destruct (strand_identified c ps Ic Sd Sv Sub Sup) as (l & El & (W & (P1 & P2) & Dm & Ed) & Cl). eexists. split; [exact Ei|]. split; [exact Sub|]. split; [exact Sup|]. split; [exact El|].
      split; [exact Sub|]. split; [exact Sup|]. cbn [fi_dimension fi_shape fi_positions snd]. split; [reflexivity|]. exists l. split; [reflexivity|]. split; [exact W|]. split; [intros x Ix; apply Sub, P1; exact Ix|]. split; [exact Ed|]. split; [|exact Cl].
      intros x Ix. destruct (Sup x Ix) as (y & Iy & Sy). destruct (Dm y Iy) as [Il|(z & Iz & Ez)]; [exists y; auto|]. exists z. split; auto. right. unfold adjacent. eapply within_place; [apply same_place_sym; exact Sy|apply same_place_refl|]. apply (edge_adjacent c); auto. Qed.
End Groups.

(** *** The positions fall into groups (each position is in one of them, none is empty); positions of
    different groups are surely further apart than the feature size; each group is either around a point
    or along a line.  Then identification returns exactly one object for each group, in some order:
    points for the points, lines for the lines. *)
Theorem C77_identified : forall le env per boxes (fs : double) m M positions groups, good_line_env le -> dim_setting env per boxes fs M positions ->
  (forall x, In x positions <-> exists g, In g groups /\ In x (fst g)) -> (forall g, In g groups -> fst g <> []) ->
  (forall i j g h x y, nth_error groups i = Some g -> nth_error groups j = Some h -> i <> j -> In x (fst g) -> In y (fst h) -> surely_apart per boxes fs x y) ->
  (forall ps k, In (ps, k) groups -> match k with
     | Spot c r => spot per boxes fs ps c r
     | Strand => strand per boxes fs ps /\ forall x, In x ps -> accurate_svds (fe_svd env) per boxes ps x end) ->
  exists objects found, frun_from_positions (with_line env (fevaluate_line le per boxes fs m)) per boxes fs positions = Ok objects /\
    Permutation found groups /\ Forall2 (fun g o => identified_as per boxes fs m M (fst g) (snd g) o) found objects.
Proof. intros le env per boxes fs m M positions groups Le St Cov Nes Ap Kd. set (E := with_line env (fevaluate_line le per boxes fs m)).
  set (cl := fcreate_clusters (fe_order env) (fe_edges env) per boxes fs positions).
  destruct (choose_list (fun c (io : nat * fident) => exists g, nth_error groups (fst io) = Some g /\ (forall x, In x (g_nodes c) -> In x (fst g)) /\ (forall x, In x (fst g) -> in_cluster c x) /\
    fidentify_cluster E per boxes fs c = Ok (snd io) /\ identified_as per boxes fs m M (fst g) (snd g) (snd io)) cl) as (l & El & Hl).
  { intros c Ic. destruct (group_identified le env per boxes fs m M positions groups Le St Cov Ap Kd c Ic) as (i & g & o & H). exists (i, o), g. exact H. }
  assert (Hc : forall q, In q l -> In (fst q) cl) by (intros q Iq; rewrite <- El; apply in_map; exact Iq).
  assert (HO : any_order (fe_order env)) by apply St. assert (EO : any_order (fe_edges env)) by apply St. assert (GC : good_clustering boxes fs positions) by apply St.
  destruct (C69_partition (fe_order env) (fe_edges env) per boxes fs positions HO EO GC) as (Ex & Uq & Pos & Ne).
  assert (Inj : forall q q', In q l -> In q' l -> fst (snd q) = fst (snd q') -> fst q = fst q').
  { intros q q' Iq Iq' Eq. destruct (Hl q Iq) as (g & Eg & _ & S1 & _). destruct (Hl q' Iq') as (g' & Eg' & _ & S2 & _). rewrite Eq in Eg. assert (g = g') by congruence. subst g'. assert (Gi : In g groups) by (eapply nth_error_In; eauto).
    pose proof (Nes g Gi) as N. assert (X : exists x, In x (fst g)) by (destruct (fst g) as [|x k]; [congruence|exists x; left; reflexivity]). destruct X as (x & Ix). apply (Uq (fst q) (fst q') x (Hc q Iq) (Hc q' Iq')); auto. }
  assert (Ncl : NoDup cl) by (apply (clusters_nodup env per boxes fs positions); [apply St|exact GC]).
  assert (Nix : NoDup (map (fun q => fst (snd q)) l)).
  { rewrite <- El in Ncl. clear - Ncl Inj. induction l as [|q l IH]; cbn [map] in *; constructor.
    - intros I. apply in_map_iff in I as (q' & Eq & Iq'). inversion Ncl as [|? ? Nx _]; subst. apply Nx. rewrite <- (Inj q' q (or_intror Iq') (or_introl eq_refl) Eq). apply in_map. exact Iq'.
    - inversion Ncl; subst. apply IH; auto. intros a b Ia Ib. apply Inj; right; auto. }
  assert (Pix : Permutation (map (fun q => fst (snd q)) l) (seq 0 (length groups))).
  { apply NoDup_Permutation; [exact Nix|apply seq_NoDup|]. intros i. rewrite in_seq. split.
    - intros I. apply in_map_iff in I as (q & <- & Iq). destruct (Hl q Iq) as (g & Eg & _). split; [apply Nat.le_0_l|]. apply nth_error_Some. rewrite Eg. discriminate.
    - intros (_ & Li). cbn [Nat.add] in Li. apply nth_error_Some in Li. destruct (nth_error groups i) as [g|] eqn:Eg; [|congruence]. assert (Gi : In g groups) by (eapply nth_error_In; eauto). pose proof (Nes g Gi) as N. assert (X : exists x, In x (fst g)) by (destruct (fst g) as [|x k]; [congruence|exists x; left; reflexivity]). destruct X as (x & Ix).
      destruct (Ex x) as (c & Ic & (y & Iy & Sy)); [apply Cov; eauto|]. fold cl in Ic. assert (Iq : exists q, In q l /\ fst q = c) by (rewrite <- El in Ic; apply in_map_iff in Ic as (q & Q & Iq); eauto). destruct Iq as (q & Iq & Eq). subst c.
      destruct (Hl q Iq) as (h & Eh & Sub & _). pose proof (same_index per boxes fs groups Ap i (fst (snd q)) g h x y Eg Eh Ix (Sub y Iy)) as Ei. rewrite Ei; [apply (in_map (fun q => fst (snd q))); exact Iq|].
      intros Apt. apply Apt. apply place_close; [|exact Sy]. exact (herr env per boxes fs M positions St). }
  destruct groups as [|g0 gs] eqn:Eg0.
  { assert (l = []) as -> by (destruct l as [|q l]; [reflexivity|exfalso; destruct (Hl q (or_introl eq_refl)) as (g & Eg & _); destruct (fst (snd q)); discriminate]). cbn [map] in El. exists [], []. split; [|split; [apply Permutation_refl|constructor]].
    unfold frun_from_positions. change (fcreate_clusters (fe_order E) (fe_edges E) per boxes fs positions) with cl. rewrite <- El. reflexivity. }
  rewrite <- Eg0 in *. exists (map (fun q => snd (snd q)) l), (map (fun q => nth (fst (snd q)) groups g0) l). split; [|split].
  - unfold frun_from_positions. change (fcreate_clusters (fe_order E) (fe_edges E) per boxes fs positions) with cl. rewrite <- El, map_map. apply FloatAverage.sequence_ok. intros q Iq. destruct (Hl q Iq) as (g & _ & _ & _ & H & _). exact H.
  - assert (Es : map (fun i => nth i groups g0) (seq 0 (length groups)) = groups).
    { clear. induction groups as [|g gs IH]; [reflexivity|]. cbn [length seq map nth]. f_equal. rewrite <- seq_shift, map_map. cbn [nth]. exact IH. }
    apply Permutation_trans with (map (fun i => nth i groups g0) (seq 0 (length groups))); [|rewrite Es; apply Permutation_refl].
    rewrite <- map_map with (f := fun q : graph (list double) double * (nat * fident) => fst (snd q)) (g := fun i => nth i groups g0). apply Permutation_map. exact Pix.
  - assert (F : Forall (fun q => identified_as per boxes fs m M (fst (nth (fst (snd q)) groups g0)) (snd (nth (fst (snd q)) groups g0)) (snd (snd q))) l).
    { apply Forall_forall. intros q Iq. destruct (Hl q Iq) as (g & Eg & _ & _ & _ & H). rewrite (nth_error_nth _ _ g0 Eg). exact H. }
    clear - F. induction F as [|q l H F IH]; cbn [map]; constructor; auto. Qed.
Print Assumptions C77_identified.

(** the positions a search from scratch has found can be given to identification *)
Lemma search_clustering g p evals raises Q s k (fs : double) : good_fconfig g -> good_fstart g s [] [] Q [] -> fproper g Q -> fsearch g p evals raises s k -> (forall y v, evals y v -> v <> nan) -> fg_gap g <> nan -> fg_boxes g <> [] -> is_finite fs = true ->
  good_clustering (fg_boxes g) fs (map dr_pos (cl_flat (fc_nodes (fs_result (fk_state k))))) /\
  fc_per (fs_result (fk_state k)) = fg_per g /\ fc_boxes (fs_result (fk_state k)) = fg_boxes g /\ fc_cutoff (fs_result (fk_state k)) = fg_cutoff g.
Proof. intros GC GS PS Sr N Ng Nb Ff. destruct (fsearch_facts g p evals raises GC [] [] Q [] s GS PS k Sr) as (R & _).
  destruct (i_hist _ _ _ _ _ _ (proj1 (reach_kinv g [] [] Q [] GC s k GS R))) as (A1 & A2 & A3 & A4 & A5 & A6 & A7).
  destruct (history_good _ _ _ _ A1 _ _ _ A7 A5 A6) as (E1 & E2 & _ & E4 & _). cbn [mst fst snd] in E1, E2, E4. split; [|auto].
  split; [exact A1|]. split; [exact Nb|]. split; [exact A2|]. split; [exact Ff|]. apply Forall_forall. intros x Hx. apply in_map_iff in Hx as (n & <- & Hn).
  destruct (C67_nodes_evaluated g p evals raises [] [] Q [] s k GC GS PS Sr N Ng n Hn) as [(r0 & [] & _)|(_ & _ & y & v & _ & _ & W & Im & Ip)].
  destruct (fg_per g); [|rewrite Ip; apply fwithin_good; auto]. clear - A1 Ip. revert A1 Ip. generalize (dr_pos n). induction (fg_boxes g) as [|b bs IH]; intros q G H; inversion H; subst; constructor.
  - apply in_box_good; auto. exact (Forall_inv G).
  - apply IH; auto. exact (Forall_inv_tail G). Qed.
(** *** A search from scratch followed by identify.run, at any time of the search. *)
Theorem C77_search : forall g p evals raises Q s k le env m feature_size M groups, good_fconfig g -> good_fstart g s [] [] Q [] -> fproper g Q ->
  fsearch g p evals raises s k -> (forall y v, evals y v -> v <> nan) -> fg_gap g <> nan -> fg_boxes g <> [] -> good_line_env le -> good_fenvironment env -> accurate_pow (fe_pow env) ->
  let positions := map dr_pos (cl_flat (fc_nodes (fs_result (fk_state k)))) in
  let fs : double := match feature_size with Some fs => fs | None => fmul (fg_cutoff g) dthree end in
  is_finite fs = true -> moderate_size M (fg_boxes g) fs positions -> bpow radix2 (-15) * total_size (fg_boxes g) <= B2R fs -> bpow radix2 (-100) <= B2R fs ->
  (forall x, In x positions <-> exists gr, In gr groups /\ In x (fst gr)) -> (forall gr, In gr groups -> fst gr <> []) ->
  (forall i j gr h x y, nth_error groups i = Some gr -> nth_error groups j = Some h -> i <> j -> In x (fst gr) -> In y (fst h) -> surely_apart (fg_per g) (fg_boxes g) fs x y) ->
  (forall ps kd, In (ps, kd) groups -> match kd with
     | Spot c r => spot (fg_per g) (fg_boxes g) fs ps c r
     | Strand => strand (fg_per g) (fg_boxes g) fs ps /\ forall x, In x ps -> accurate_svds (fe_svd env) (fg_per g) (fg_boxes g) ps x end) ->
  exists objects found, fidentify_run (with_line env (fevaluate_line le (fg_per g) (fg_boxes g) fs m)) (fs_result (fk_state k)) feature_size = Ok objects /\
    Permutation found groups /\ Forall2 (fun gr o => identified_as (fg_per g) (fg_boxes g) fs m M (fst gr) (snd gr) o) found objects.
Proof. intros g p evals raises Q s k le env m feature_size M groups GC GS PS Sr N Ng Nb Le GE Pw positions fs Ff Ms T1 T2 Cov Nes Ap Kd.
  destruct (search_clustering g p evals raises Q s k fs GC GS PS Sr N Ng Nb Ff) as (Gc & E1 & E2 & E4). unfold fidentify_run. rewrite E1, E2, E4. fold positions fs.
  apply (C77_identified le env (fg_per g) (fg_boxes g) fs m M positions groups Le); auto. repeat (split; [assumption|]). assumption. Qed.
Print Assumptions C77_search.

(** hypotheses met: in the periodic box [0, 1] with the feature size 1/4, a line with three positions (the
    distances are 3/16) and a point 5/16 away from it in both directions *)
Definition c77_line : list (list double) := [d1 0 (-4); d1 3 (-4); d1 6 (-4)].
Definition c77_point : list (list double) := [d1 11 (-4)].
Lemma sixteenth n : (0 <= n <= 16)%Z -> is_finite (of_dyadic n (-4)) = true /\ B2R (of_dyadic n (-4)) = IZR n / 16.
Proof. intros Hn. destruct (of_dyadic_val n (-4) ltac:(lia) ltac:(lia)) as (A & B). split; [exact A|exact B]. Qed.
Lemma far_apart n k N D : (0 <= n <= 16)%Z -> (0 <= k <= 16)%Z -> (forall j, (N <= Z.abs (n - k - 16 * j))%Z) -> 0 <= D < IZR N / 16 -> ~ within_dist true ex_boxes (d1 n (-4)) (d1 k (-4)) D.
Proof. intros Hn Hk F B Wd. apply within_place_iff in Wd. unfold place, d1 in Wd. cbn [map] in Wd. rewrite (proj2 (sixteenth n Hn)), (proj2 (sixteenth k Hk)) in Wd. apply within_unit in Wd; [|lra]. destruct Wd as (j & Wd).
  pose proof (IZR_le _ _ (F j)) as A. rewrite abs_IZR, !minus_IZR, mult_IZR in A. apply Rabs_le_inv in Wd. unfold Rabs in A. destruct (Rcase_abs _); lra. Qed.
Lemma near_by n k : (0 <= n <= 16)%Z -> (0 <= k <= 16)%Z -> (Z.abs (n - k) <= 3)%Z -> surely_close true ex_boxes c73_fs (d1 n (-4)) (d1 k (-4)).
Proof. intros Hn Hk A. destruct ex_size as (Es & _). exists (3 / 16). split; [lra|]. split.
  - exists [0%Z]. split; [reflexivity|]. split; [discriminate|]. cbn [ex_boxes d1 image_dist_sq]. rewrite (proj2 (sixteenth n Hn)), (proj2 (sixteenth k Hk)). assert (B1 : IZR (n - k) <= 3) by (apply IZR_le; lia). assert (B2 : -3 <= IZR (n - k)) by (apply IZR_le; lia). rewrite minus_IZR in B1, B2. nra.
  - unfold dist_error, total_size. cbn [ex_boxes map fold_right]. rewrite Es. unfold c73_fs. rewrite (proj2 (quarter_val 1 ltac:(lia))). change (bpow radix2 (-43)) with (/ 8796093022208). change (bpow radix2 (-39)) with (/ 549755813888). lra. Qed.
Theorem C77_hypotheses_met : good_line_env simple_le /\ dim_setting dim_fenv true ex_boxes c73_fs 1 (c77_point ++ c77_line) /\
  let groups := [(c77_line, Strand); (c77_point, Spot [11 / 16] (/ 64))] in
  (forall x, In x (c77_point ++ c77_line) <-> exists g, In g groups /\ In x (fst g)) /\ (forall g, In g groups -> fst g <> []) /\
  (forall i j g h x y, nth_error groups i = Some g -> nth_error groups j = Some h -> i <> j -> In x (fst g) -> In y (fst h) -> surely_apart true ex_boxes c73_fs x y) /\
  (forall ps k, In (ps, k) groups -> match k with
     | Spot c r => spot true ex_boxes c73_fs ps c r
     | Strand => strand true ex_boxes c73_fs ps /\ forall x, In x ps -> accurate_svds (fe_svd dim_fenv) true ex_boxes ps x end).
Proof. destruct ex_size as (Es & El). assert (Vf : B2R c73_fs = / 4) by (unfold c73_fs; rewrite (proj2 (quarter_val 1 ltac:(lia))); lra). pose proof (proj1 (quarter_val 1 ltac:(lia))) as Ff.
  split; [apply simple_le_good|]. split.
  { assert (Ps : Forall (fun p => exists x, p = [x] /\ is_finite x = true /\ 0 <= B2R x <= 1) (c77_point ++ c77_line)).
    { apply Forall_forall. intros p [<-|[<-|[<-|[<-|[]]]]]; eexists; (split; [reflexivity|]); (split; [apply (fun n H => proj1 (sixteenth n H)); lia|]); rewrite (fun n H => proj2 (sixteenth n H)) by lia; lra. }
    split; [apply dim_fenv_good|]. split; [apply fpow3_accurate|]. split; [apply unit_good; [exact Ff|exact Ps]|]. split.
    - split; [change (bpow radix2 20) with 1048576; lra|]. split; [rewrite Vf; change (bpow radix2 20) with 1048576; lra|]. split; [destruct C73_hypotheses_met as (_ & _ & _ & _ & (_ & _ & H & _) & _); exact H|].
      split; [|apply Nat.leb_le; vm_compute; reflexivity]. eapply Forall_impl; [|exact Ps]. intros p (x & -> & _ & B). constructor; [|constructor]. rewrite Rabs_pos_eq; lra.
    - unfold total_size. cbn [ex_boxes map fold_right]. rewrite Es, Vf. split; [change (bpow radix2 (-15)) with (/ 32768); lra|change (/ 4) with (bpow radix2 (-2)); apply bpow_le; lia]. }
  cbv zeta. split; [|split; [|split]].
  - intros x. split.
    + intros I. apply in_app_iff in I as [I|I]; [exists (c77_point, Spot [11 / 16] (/ 64))|exists (c77_line, Strand)]; (split; [|exact I]); [right; left|left]; reflexivity.
    + intros (g & [<-|[<-|[]]] & I); apply in_app_iff; auto.
  - intros g [<-|[<-|[]]]; discriminate.
  - assert (K : forall n k, (n = 11 /\ (k = 0 \/ k = 3 \/ k = 6) \/ k = 11 /\ (n = 0 \/ n = 3 \/ n = 6))%Z -> surely_apart true ex_boxes c73_fs (d1 n (-4)) (d1 k (-4))).
    { intros n k H. unfold surely_apart. apply (far_apart n k 5); [lia|lia|intros j; lia|]. unfold dist_error, total_size. cbn [ex_boxes map fold_right]. rewrite Es, Vf. change (bpow radix2 (-43)) with (/ 8796093022208). change (bpow radix2 (-39)) with (/ 549755813888). lra. }
    intros i j g h x y Ei Ej N. destruct i as [|[|i]]; [| |destruct i; discriminate Ei]; (destruct j as [|[|j]]; [| |destruct j; discriminate Ej]); try congruence; cbn in Ei, Ej; inversion Ei; inversion Ej; subst; cbn [fst].
    + intros [<-|[<-|[<-|[]]]] [<-|[]]; apply K; lia.
    + intros [<-|[]] [<-|[<-|[<-|[]]]]; apply K; lia.
  - intros ps k [Eg|[Eg|[]]]; inversion Eg; subst.
    + split; [|intros x _ t vs _ _ (L2 & _) L1; cbn in L1; exfalso; lia].
      assert (Q : forall x, In x c77_line -> exists n, (n = 0 \/ n = 3 \/ n = 6)%Z /\ x = d1 n (-4)) by (intros x [<-|[<-|[<-|[]]]]; eexists; (split; [|reflexivity]); lia).
      assert (Fr : forall n k, (n = 0 \/ n = 3 \/ n = 6)%Z -> (k = 0 \/ k = 3 \/ k = 6)%Z -> n <> k -> ~ within_dist true ex_boxes (d1 n (-4)) (d1 k (-4)) ((1 + bpow radix2 (-16)) * (B2R c73_fs / 4))).
      { intros n k Hn Hk N. apply (far_apart n k 3); [lia|lia|intros j; lia|]. rewrite Vf. change (bpow radix2 (-16)) with (/ 65536). lra. }
      assert (Df : forall n k, (n = 0 \/ n = 3 \/ n = 6)%Z -> (k = 0 \/ k = 3 \/ k = 6)%Z -> n <> k -> ~ same_place (d1 n (-4)) (d1 k (-4))).
      { intros n k Hn Hk N S. apply (Fr n k Hn Hk N). apply place_close; auto. rewrite Vf. change (bpow radix2 (-16)) with (/ 65536). lra. }
      assert (Inl : forall n, (n = 0 \/ n = 3 \/ n = 6)%Z -> In (d1 n (-4)) c77_line) by (intros n [->|[->| ->]]; unfold c77_line; cbn [In]; auto).
      split; [|split; [|split]].
      * intros x Ix. destruct (Q x Ix) as (n & Hn & ->). destruct (Z.eq_dec n 3) as [->|N]; [exists (d1 0 (-4))|exists (d1 3 (-4))]; (split; [apply Inl; lia|apply Df; lia]).
      * intros x y Ix Iy. destruct (Q x Ix) as (n & Hn & ->). destruct (Q y Iy) as (k & Hk & ->). destruct (Z.eq_dec n k) as [->|N]; [left; apply same_place_refl|right; apply Fr; auto].
      * set (Rl := fun a b => In a c77_line /\ In b c77_line /\ surely_close true ex_boxes c73_fs a b).
        assert (One : forall n k, (n = 0 \/ n = 3 \/ n = 6)%Z -> (k = 0 \/ k = 3 \/ k = 6)%Z -> (Z.abs (n - k) <= 3)%Z -> linked Rl (d1 n (-4)) (d1 k (-4))) by (intros n k Hn Hk A; apply linked_one; split; [apply Inl; auto|]; split; [apply Inl; auto|]; apply near_by; lia).
        intros x y Ix Iy. destruct (Q x Ix) as (n & Hn & ->). destruct (Q y Iy) as (k & Hk & ->). apply linked_trans with (d1 3 (-4)); apply One; lia.
      * intros x Ix. exists [1]. split; [reflexivity|]. intros y v Iy _ _ Lv. destruct Lv as ((ks & Lk & _ & ->) & _). destruct (Q x Ix) as (n & Hn & ->). destruct (Q y Iy) as (k & Hk & ->). destruct ks as [|z [|]]; try discriminate Lk.
        cbn [ex_boxes place d1 map image_diff]. exists [B2R (of_dyadic n (-4)) - B2R (of_dyadic k (-4)) - IZR z * fbox_size (B754_zero false, fone)], [0]. split; [reflexivity|]. split; [reflexivity|]. split; [|unfold rlength; cbn [map fold_right]; replace (0 ^ 2 + 0) with 0 by ring; rewrite sqrt_0, Vf; lra].
        set (a := B2R (of_dyadic n (-4))). set (b := B2R (of_dyadic k (-4))). set (c := fbox_size (B754_zero false, fone)). clearbody a b c. cbn. f_equal. ring.
    + split; [reflexivity|]. split; [lra|]. split; [unfold slack, total_size; cbn [ex_boxes map fold_right]; rewrite Es, Vf; change (bpow radix2 (-25)) with (/ 33554432); lra|]. split; [intros _; constructor; [rewrite Es, Vf; lra|constructor]|].
      intros x [<-|[]]. exists [0%Z]. split; [reflexivity|]. split; [discriminate|]. cbn [ex_boxes place d1 map image_sq]. rewrite (proj2 (sixteenth 11 ltac:(lia))). nra. Qed.
Print Assumptions C77_hypotheses_met.
