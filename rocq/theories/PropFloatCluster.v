(** C69: clusters in double precision. *)
From Coq Require Import ZArith Reals Psatz List Permutation.
From Flocq Require Import Core BinarySingleNaN.
From Verif Require Import Base BaseFacts CoordSys SpecGeom CoordSysR Graph SpecGraph GraphFacts GraphComponents SpecCluster ClusterFacts Float FloatFacts FloatVector FloatVectorFacts FloatMin FloatCell SpecFloatCell FloatCellNum FloatCellFacts PropFloatCell
  FloatController FloatCluster SpecFloatCluster FloatDistNum FloatClusterFacts.
From Coq Require Import Lra.
Import ListNotations.
Open Scope list_scope.
Open Scope R_scope.

(** ** helper lemmas *)
Lemma image_opp : forall boxes p q ks, image_dist_sq boxes q p (map Z.opp ks) = image_dist_sq boxes p q ks.
Proof. induction boxes as [|b boxes IH]; intros [|x p] [|y q] [|k ks]; cbn [image_dist_sq map]; auto. rewrite IH, opp_IZR. ring. Qed.
Lemma within_sym per boxes p q d : within_dist per boxes p q d -> within_dist per boxes q p d.
Proof. intros (ks & L & Z & H). exists (map Z.opp ks). split; [rewrite map_length; auto|]. split; [|rewrite image_opp; auto]. intros E. specialize (Z E). clear - Z. induction Z; cbn; constructor; auto. subst. auto. Qed.
Lemma within_place per boxes p q p' q' d : same_place p p' -> same_place q q' -> within_dist per boxes p q d -> within_dist per boxes p' q' d.
Proof. intros Sp Sq (ks & L & Z & H). exists ks. split; auto. split; auto. replace (image_dist_sq boxes p' q' ks) with (image_dist_sq boxes p q ks); auto. clear - Sp Sq.
  revert boxes q q' ks Sq. induction Sp as [|x x' p p' Ex Sp IH]; intros boxes q q' ks Sq; destruct Sq as [|y y' q q' Ey Sq], boxes as [|b boxes], ks as [|k ks]; cbn [image_dist_sq]; auto. rewrite Ex, Ey, (IH boxes q q' ks); auto. Qed.
Lemma within_mono per boxes p q d d' : 0 <= d <= d' -> within_dist per boxes p q d -> within_dist per boxes p q d'.
Proof. intros Hd (ks & L & Z & H). exists ks. split; auto. split; auto. eapply Rle_trans; [exact H|]. apply pow_incr. auto. Qed.
Lemma error_mono boxes d d' : d <= d' -> dist_error boxes d <= dist_error boxes d'.
Proof. intros H. unfold dist_error. apply Rplus_le_compat_r. apply Rmult_le_compat_l; [left; apply pw_pos|auto]. Qed.
Lemma error_nonneg boxes d : Forall good_box boxes -> 0 <= d -> 0 <= dist_error boxes d.
Proof. intros G H. unfold dist_error. change (total_size boxes) with (tsize boxes). pose proof (tsize_nonneg boxes G). pose proof (pw_pos (-43)). pose proof (pw_pos (-39)). apply Rplus_le_le_0_compat; apply Rmult_le_pos; lra. Qed.
Lemma good_finite boxes ps : Forall (good_position boxes) ps -> Forall finite_pos ps.
Proof. apply Forall_impl. intros p H. unfold finite_pos. eapply coords_fin; eauto. Qed.

(** *** The computed distance: not infinite or NaN, not negative, and it differs from the exact
    distance (to the nearest image) by at most [dist_error]. *)
Theorem C69_distance : forall per boxes p q, Forall good_box boxes -> boxes <> [] -> (length boxes <= 64)%nat -> good_position boxes p -> good_position boxes q ->
  let D := B2R (fdist per boxes q p) in
  is_finite (fdist per boxes q p) = true /\ 0 <= D /\ within_dist per boxes p q (D + dist_error boxes D) /\
  forall d, 0 <= d -> within_dist per boxes p q d -> D <= d + dist_error boxes d.
Proof. intros per boxes p q Gb Ne Ll Hp Hq. exact (dist_accurate per boxes Gb Ll Ne p q Hp Hq). Qed.
Print Assumptions C69_distance.

Section Run.
  Variables (order : list fpoint -> list fpoint) (eorder : list (fpoint * fpoint * double) -> list (fpoint * fpoint * double)).
  Variables (per : bool) (boxes : list fbox) (fs : double) (positions : list fpoint).
  Hypothesis O : any_order order.
  Hypothesis EO : any_order eorder.
  Hypothesis GC : good_clustering boxes fs positions.
  Let us := order (fset_of positions).
  Lemma gc_finite : Forall finite_pos positions.
  Proof. apply (good_finite boxes), GC. Qed.
  Lemma us_positions x : In x us -> In x positions.
  Proof. intros I. apply (fus_in order positions O) in I. apply (fset_spec positions gc_finite). auto. Qed.
  Lemma positions_us x : In x positions -> exists y, In y us /\ same_place x y.
  Proof. intros I. destruct (fset_spec positions gc_finite) as (_ & _ & _ & E). destruct (E x I) as (y & Iy & S). exists y. split; auto. apply (fus_in order positions O). auto. Qed.
  Lemma us_place x y : In x us -> In y us -> same_place x y -> x = y.
  Proof. intros Ix Iy S. apply (fus_in order positions O) in Ix, Iy. destruct (fset_spec positions gc_finite) as (_ & E & _). auto. Qed.
  Lemma us_good x : In x us -> good_position boxes x.
  Proof. intros I. apply us_positions in I. destruct GC as (_ & _ & _ & _ & F). rewrite Forall_forall in F. auto. Qed.
  Lemma compared x y : In x us -> In y us -> fin (fdist per boxes x y) /\ (dle (fdist per boxes x y) fs = true <-> B2R (fdist per boxes x y) <= B2R fs).
  Proof. intros Ix Iy. destruct GC as (Gb & Ne & Ll & Ff & _). destruct (C69_distance per boxes y x Gb Ne Ll (us_good y Iy) (us_good x Ix)) as (F & _). split; auto. unfold dle. rewrite Bleb_correct by auto.
    destruct (Rle_bool_spec (B2R (fdist per boxes x y)) (B2R fs)) as [H|H]; split; auto; try discriminate. intros H'. exfalso. lra. Qed.
  Lemma tested_within x y : ftested order per boxes fs positions x y -> In x us /\ In y us /\ within_dist per boxes x y (B2R fs + dist_error boxes (B2R fs)).
  Proof. intros (Bf & D). destruct (before_in _ _ _ Bf) as (Ix & Iy). split; auto. split; auto. destruct (compared x y Ix Iy) as (_ & C). apply C in D. apply within_sym. destruct GC as (Gb & Ne & Ll & _).
    destruct (C69_distance per boxes y x Gb Ne Ll (us_good y Iy) (us_good x Ix)) as (_ & D0 & W & _). eapply within_mono; [|exact W]. split; [apply Rplus_le_le_0_compat; auto; apply error_nonneg; auto|]. apply Rplus_le_compat; auto. apply error_mono. auto. Qed.
  Lemma close_linked x y : In x us -> In y us -> x <> y -> surely_close per boxes fs x y -> flinks order per boxes fs positions x y.
  Proof. intros Ix Iy N (d & D0 & W & H). destruct GC as (Gb & Ne & Ll & _).
    assert (T : forall a b, before us a b -> within_dist per boxes b a d -> ftested order per boxes fs positions a b).
    { intros a b Bf W'. split; auto. destruct (before_in _ _ _ Bf) as (Ia & Ib). apply compared; auto. destruct (C69_distance per boxes b a Gb Ne Ll (us_good b Ib) (us_good a Ia)) as (_ & _ & _ & U). specialize (U d D0 W'). lra. }
    destruct (before_total us x y Ix Iy N) as [Bf|Bf]; [left|right]; apply T; auto. apply within_sym; auto. Qed.
End Run.

(** *** Every position is in exactly one cluster, and the clusters contain only given positions, none
    twice; none is empty. *)
Theorem C69_partition : forall order eorder per boxes fs positions, any_order order -> any_order eorder -> good_clustering boxes fs positions ->
  let clusters := fcreate_clusters order eorder per boxes fs positions in
  (forall x, In x positions -> exists c, In c clusters /\ in_cluster c x) /\
  (forall c d x, In c clusters -> In d clusters -> in_cluster c x -> in_cluster d x -> c = d) /\
  (forall c x, In c clusters -> In x (g_nodes c) -> In x positions) /\
  (forall c, In c clusters -> g_nodes c <> [] /\ forall i j x y, nth_error (g_nodes c) i = Some x -> nth_error (g_nodes c) j = Some y -> same_place x y -> i = j).
Proof. intros order eorder per boxes fs positions HO EO GC clusters. pose proof (gc_finite boxes fs positions GC) as P. pose proof (fclusters_partition order eorder per boxes fs positions HO P) as Pm. fold clusters in Pm.
  assert (Nd : NoDup (concat (map (@g_nodes fpoint double) clusters))) by (eapply Permutation_NoDup; [apply Permutation_sym; exact Pm|]; apply fus_nodup; auto).
  split; [|split; [|split]].
  - intros x Ix. destruct (positions_us order boxes fs positions HO GC x Ix) as (y & Iy & S). destruct (fcluster_exists order eorder per boxes fs positions HO P y Iy) as (c & Ic & Iyc). exists c. split; auto. exists y. auto.
  - intros c d x Ic Id (y & Iy & Sy) (z & Iz & Sz). assert (y = z).
    { apply (us_place order boxes fs positions HO GC); [exact (fcluster_in order eorder per boxes fs positions HO P c y Ic Iy)|exact (fcluster_in order eorder per boxes fs positions HO P d z Id Iz)|]. apply same_place_trans with x; [apply same_place_sym; exact Sy|exact Sz]. }
    subst z. clear - Nd Ic Id Iy Iz. induction clusters as [|e l IH]; [destruct Ic|]. cbn in Nd. assert (N : forall a, In a (g_nodes e) -> In a (concat (map (@g_nodes fpoint double) l)) -> False).
    { clear - Nd. intros a Ha Hl. induction (g_nodes e) as [|b m IHm]; [destruct Ha|]. cbn in Nd. inversion Nd; subst. destruct Ha as [<-|Ha]; [apply H1; apply in_app_iff; auto|auto]. }
    assert (Nl : NoDup (concat (map (@g_nodes fpoint double) l))) by (clear - Nd; induction (g_nodes e) as [|b m IHm]; auto; cbn in Nd; inversion Nd; auto).
    destruct Ic as [<-|Ic], Id as [<-|Id]; auto; exfalso; apply (N y); auto; apply in_concat; [exists (g_nodes d)|exists (g_nodes c)]; split; auto; apply in_map; auto.
  - intros c x Ic Ix. apply (us_positions order boxes fs positions HO GC). eapply fcluster_in; eauto.
  - intros c Ic. split; [eapply fcluster_nonempty; eauto|]. intros i j x y Ex Ey S. assert (x = y).
    { apply (us_place order boxes fs positions HO GC); auto; eapply fcluster_in; eauto; eapply nth_error_In; eauto. }
    subst y. assert (Nc : NoDup (g_nodes c)) by (apply (fcluster_wf order eorder per boxes fs positions HO EO P c Ic)). eapply NoDup_nth_error; eauto; [apply nth_error_Some; congruence|congruence]. Qed.
Print Assumptions C69_partition.

(** *** Positions that are surely close are in the same cluster. *)
Theorem C69_close_together : forall order eorder per boxes fs positions x y c, any_order order -> any_order eorder -> good_clustering boxes fs positions ->
  In x positions -> In y positions -> surely_close per boxes fs x y ->
  In c (fcreate_clusters order eorder per boxes fs positions) -> in_cluster c x -> in_cluster c y.
Proof. intros order eorder per boxes fs positions x y c HO EO GC Ix Iy (d & D0 & W & Hd) Ic (x' & Ix' & Sx). pose proof (gc_finite boxes fs positions GC) as P.
  destruct (positions_us order boxes fs positions HO GC y Iy) as (y' & Iy' & Sy). exists y'. split; auto. destruct (list_eq_dec eq_dec x' y') as [<-|N]; auto.
  apply (fcluster_same order eorder per boxes fs positions HO P c x' y' Ic Ix'). apply linked_one. apply close_linked; auto; [eapply fcluster_in; eauto|]. exists d. split; auto. split; auto. eapply within_place; eauto. Qed.
Print Assumptions C69_close_together.

(** *** Two positions of a cluster are connected by steps between positions of the cluster that
    are not surely apart. *)
Theorem C69_connected : forall order eorder per boxes fs positions x y c, any_order order -> any_order eorder -> good_clustering boxes fs positions ->
  In c (fcreate_clusters order eorder per boxes fs positions) -> In x (g_nodes c) -> In y (g_nodes c) -> linked (maybe_close per boxes fs (g_nodes c)) x y.
Proof. intros order eorder per boxes fs positions x y c HO EO GC Ic Ix Iy. pose proof (gc_finite boxes fs positions GC) as P. pose proof (fcluster_same order eorder per boxes fs positions HO P c) as Sm.
  apply (Sm x y Ic Ix) in Iy. destruct Iy as (p & F & L). exists p. split; auto. clear L. revert x Ix F. induction p as [|z p IH]; intros x Ix F; cbn; auto. destruct F as [F1 F2].
  assert (Iz : In z (g_nodes c)) by (apply (Sm x z Ic Ix); apply linked_one; auto). split; [|apply IH; auto]. split; auto. split; auto. intros A. apply A.
  destruct F1 as [T|T]; apply (tested_within order per boxes fs positions HO GC) in T as (_ & _ & W); auto. apply within_sym; auto. Qed.
Print Assumptions C69_connected.

(** *** The edges of a cluster carry a computed distance of their ends, which is not above the
    feature size and accurate up to [dist_error]. *)
Theorem C69_edges : forall order eorder per boxes fs positions x y c, any_order order -> any_order eorder -> good_clustering boxes fs positions ->
  In c (fcreate_clusters order eorder per boxes fs positions) -> has_edge c x y ->
  In x (g_nodes c) /\ In y (g_nodes c) /\ exists w, edge_attr c x y = Some w /\ (w = fdist per boxes x y \/ w = fdist per boxes y x) /\ is_finite w = true /\ 0 <= B2R w <= B2R fs /\
    within_dist per boxes x y (B2R w + dist_error boxes (B2R w)) /\ forall d, 0 <= d -> within_dist per boxes x y d -> B2R w <= d + dist_error boxes d.
Proof. intros order eorder per boxes fs positions x y c HO EO GC Ic E. pose proof (gc_finite boxes fs positions GC) as P. destruct (wf_ends (fcluster_wf order eorder per boxes fs positions HO EO P c Ic) E) as (Ix & Iy). split; auto. split; auto.
  destruct GC as (Gb & Ne & Ll & Ff & Gp). assert (GC : good_clustering boxes fs positions) by (repeat (split; auto)).
  assert (K : forall a b w, In (a, b, w) (g_edges c) -> w = fdist per boxes a b /\ is_finite w = true /\ 0 <= B2R w <= B2R fs /\ within_dist per boxes a b (B2R w + dist_error boxes (B2R w)) /\ forall d, 0 <= d -> within_dist per boxes a b d -> B2R w <= d + dist_error boxes d).
  { intros a b w I. destruct (fcluster_attr order eorder per boxes fs positions HO EO P c a b w Ic I) as ((Bf & D) & ->). destruct (before_in _ _ _ Bf) as (Ia & Ib). destruct (compared order per boxes fs positions HO GC a b Ia Ib) as (F & C). apply C in D.
    destruct (C69_distance per boxes b a Gb Ne Ll (us_good order boxes fs positions HO GC b Ib) (us_good order boxes fs positions HO GC a Ia)) as (_ & D0 & W & U). split; auto. split; auto. split; auto. split; [apply within_sym; auto|]. intros d Hd Wd. apply U; auto. apply within_sym; auto. }
  unfold edge_attr. destruct (find (joins x y) (g_edges c)) as [[[u v] w]|] eqn:F.
  - apply find_some in F as (F & J). apply joins_spec in J. cbn in J. destruct (K u v w F) as (Ew & Fw & Bw & W & U). exists w. split; auto. destruct J as [[-> ->]|[-> ->]].
    + repeat (split; auto); try apply Bw.
    + split; auto. split; auto. split; auto. split; [apply within_sym; auto|]. intros d Hd Wd. apply U; auto. apply within_sym; auto.
  - exfalso. destruct E as (w & [E|E]); apply (find_none _ _ F) in E; unfold joins, end1, end2 in E; cbn in E; unfold eqb in E; repeat destruct (eq_dec _ _); cbn in E; congruence. Qed.
Print Assumptions C69_edges.

(** *** If every two positions are surely close or surely apart, the clusters are those of exact
    arithmetic: the classes of positions connected by steps that are surely close. *)
Theorem C69_unambiguous : forall order eorder per boxes fs positions x y c, any_order order -> any_order eorder -> good_clustering boxes fs positions -> 0 <= B2R fs ->
  (forall a b, In a positions -> In b positions -> surely_close per boxes fs a b \/ surely_apart per boxes fs a b) ->
  In x positions -> In y positions -> In c (fcreate_clusters order eorder per boxes fs positions) -> in_cluster c x ->
  (in_cluster c y <-> linked (fun a b => In a positions /\ In b positions /\ surely_close per boxes fs a b) x y).
Proof. intros order eorder per boxes fs positions x y c HO EO GC Fp Un Ix Iy Ic Hx. split.
  - intros (y' & Iy' & Sy). destruct Hx as (x' & Ix' & Sx). pose proof (C69_partition order eorder per boxes fs positions HO EO GC) as (_ & _ & Pos & _).
    assert (Z : forall a b, In a positions -> In b positions -> same_place a b -> linked (fun a b => In a positions /\ In b positions /\ surely_close per boxes fs a b) a b).
    { intros a b Ia Ib S. apply linked_one. split; auto. split; auto. destruct (Un a b Ia Ib) as [|Ap]; auto. exfalso. apply Ap.
      exists (map (fun _ => 0%Z) boxes). split; [apply map_length|]. split; [intros _; clear; induction boxes; constructor; auto|].
      assert (E0 : image_dist_sq boxes a b (map (fun _ => 0%Z) boxes) = 0). { clear - S. revert boxes. induction S as [|u v a b E S IH]; intros [|bx boxes]; cbn [map image_dist_sq]; auto. rewrite IH, E. ring. }
      rewrite E0. apply pow2_ge_0. }
    eapply linked_trans; [apply (Z x x'); auto; eapply Pos; eauto|]. eapply linked_trans; [|apply (Z y' y); auto; [eapply Pos; eauto|apply same_place_sym; auto]].
    pose proof (C69_connected order eorder per boxes fs positions x' y' c HO EO GC Ic Ix' Iy') as L. revert L. apply linked_mono. intros a b (Ia & Ib & Na). apply (Pos c) in Ia, Ib; auto. split; auto. split; auto. destruct (Un a b Ia Ib); auto. contradiction.
  - intros L. refine (linked_closed (fun z => in_cluster c z) _ L Hx). intros a b Ha (Ia & Ib & Sc). exact (C69_close_together order eorder per boxes fs positions a b c HO EO GC Ia Ib Sc Ic Ha). Qed.
Print Assumptions C69_unambiguous.
(** In particular they do not depend on the iteration order of the set. *)
Theorem C69_order : forall order eorder order' eorder' per boxes fs positions x y, any_order order -> any_order eorder -> any_order order' -> any_order eorder' -> good_clustering boxes fs positions -> 0 <= B2R fs ->
  (forall a b, In a positions -> In b positions -> surely_close per boxes fs a b \/ surely_apart per boxes fs a b) -> In x positions -> In y positions ->
  (exists c, In c (fcreate_clusters order eorder per boxes fs positions) /\ in_cluster c x /\ in_cluster c y) ->
  exists c, In c (fcreate_clusters order' eorder' per boxes fs positions) /\ in_cluster c x /\ in_cluster c y.
Proof. intros order eorder order' eorder' per boxes fs positions x y HO EO HO' EO' GC Fp Un Ix Iy (c & Ic & Hx & Hy).
  apply (C69_unambiguous order eorder per boxes fs positions x y c HO EO GC Fp Un Ix Iy Ic Hx) in Hy. destruct (C69_partition order' eorder' per boxes fs positions HO' EO' GC) as (Ex & _). destruct (Ex x Ix) as (c' & Ic' & Hx').
  exists c'. split; auto. split; auto. apply (C69_unambiguous order' eorder' per boxes fs positions x y c' HO' EO' GC Fp Un Ix Iy Ic' Hx'). auto. Qed.
Print Assumptions C69_order.

(** *** The result can depend on the iteration order of the set: in the periodic box [0, 1] with
    feature size 1/4, the positions 0 and 1/4 + 2^-54 are one cluster if the latter comes first,
    and two otherwise. *)
Lemma c69_sizes : fbox_size (of_dyadic (-1) (-1), of_dyadic 1 (-1)) = 1 /\ -1 <= B2R (of_dyadic (-1) (-1)) <= 1 /\ fbox_size (B754_zero false, fone) = 1 /\ -1 <= 0 <= 1.
Proof. pose proof c62_sizes as Sz. unfold c62_boxes2 in Sz. pose proof (Forall_inv Sz) as (A1 & A2). pose proof (Forall_inv (Forall_inv_tail Sz)) as (B1 & B2). cbn [fst] in A2. repeat (split; auto); try apply A2; lra. Qed.
Definition c69_unit : list (double * double) := [(B754_zero false, fone)].
Definition c69_fs : double := of_dyadic 1 (-2).
Definition c69_two : list (list double) := [[B754_zero false]; [of_dyadic (2 ^ 52 + 1) (-54)]].
Theorem C69_order_refuted : good_clustering c69_unit c69_fs c69_two /\ any_order (fun l : list (list double) => l) /\ any_order (fun l : list (list double) => rev l) /\ any_order (fun l : list (list double * list double * double) => l) /\
  map (fun c => length (g_nodes c)) (fcreate_clusters (fun l => l) (fun l => l) true c69_unit c69_fs c69_two) = [1%nat; 1%nat] /\
  map (fun c => length (g_nodes c)) (fcreate_clusters (fun l => rev l) (fun l => l) true c69_unit c69_fs c69_two) = [2%nat].
Proof. split; [|split; [intros l; apply Permutation_refl|split; [intros l; apply Permutation_sym, Permutation_rev|split; [intros l; apply Permutation_refl|split; vm_compute; reflexivity]]]].
  destruct c69_sizes as (_ & _ & B1 & B2). pose proof c62_boxes2_good as G. unfold c62_boxes2 in G. apply Forall_inv_tail in G.
  destruct (of_dyadic_val 1 (-2) ltac:(lia) ltac:(lia)) as (Fq & _). split; [exact G|]. split; [discriminate|]. split; [cbn; lia|]. split; [exact Fq|].
  constructor; [|constructor; [|constructor]]; (constructor; [|constructor]).
  - split; [reflexivity|]. rewrite B1. cbn [fst]. rewrite val_zero, Rminus_0_r, Rabs_R0, Rmult_1_r. left. apply pw_pos.
  - destruct (of_dyadic_val (2 ^ 52 + 1) (-54) ltac:(lia) ltac:(lia)) as (F & V). split; [exact F|]. rewrite B1, V. cbn [fst]. rewrite val_zero, Rminus_0_r, Rmult_1_r. change (pw 10) with 1024. change (IZR (2 ^ 52 + 1)) with 4503599627370497. change (pw (-54)) with (/ 18014398509481984). apply Rabs_le. lra. Qed.
Print Assumptions C69_order_refuted.

(** hypotheses met: two positions that are neighbours across the boundary, and one far from both *)
Definition c69_far : list double := [B754_zero false; B754_zero false].
Definition c69_three : list (list double) := [c62_node; c69_far; c62_query].
Lemma c69_error d : 0 <= d <= 1 -> 0 <= dist_error c62_boxes2 d <= / 1000.
Proof. intros H. destruct c69_sizes as (A1 & _ & B1 & _). unfold dist_error, total_size. unfold c62_boxes2. cbn [map fold_right]. rewrite A1, B1. change (pw (-43)) with (/ 8796093022208). change (pw (-39)) with (/ 549755813888). lra. Qed.
Lemma c69_close x y ks : length ks = 2%nat -> image_dist_sq c62_boxes2 x y ks <= / 36 -> surely_close true c62_boxes2 c62_quarter x y.
Proof. intros L H. exists (/ 6). split; [lra|]. split; [exists ks; split; auto; split; [discriminate|]; lra|]. destruct (of_dyadic_val 1 (-2) ltac:(lia) ltac:(lia)) as (_ & Vq). change (pw (-2)) with (/ 4) in Vq. unfold c62_quarter. rewrite Vq. pose proof (c69_error (/ 6) ltac:(lra)). lra. Qed.
Lemma c69_apart x1 y1 x2 y2 : / 3 <= Rabs (B2R y1 - B2R y2) <= 2 / 3 -> surely_apart true c62_boxes2 c62_quarter [x1; y1] [x2; y2].
Proof. intros H (ks & L & _ & W). destruct ks as [|k1 [|k2 [|? ?]]]; try discriminate. destruct c69_sizes as (A1 & _ & B1 & _). unfold c62_boxes2 in W. cbn [image_dist_sq] in W. rewrite B1 in W. fold c62_boxes2 in W.
  destruct (of_dyadic_val 1 (-2) ltac:(lia) ltac:(lia)) as (_ & Vq). change (pw (-2)) with (/ 4) in Vq. unfold c62_quarter in W. rewrite Vq, Rmult_1_l in W. pose proof (c69_error (/ 4) ltac:(lra)) as E. set (e := dist_error _ _) in *. set (f := (_ - _ - IZR k1 * _) ^ 2) in W. assert (0 <= f) by apply pow2_ge_0.
  assert (N : (B2R y1 - B2R y2 - IZR k2 * 1) ^ 2 >= / 9).
  { rewrite Rmult_1_r. set (t := B2R y1 - B2R y2) in *. clearbody t. assert (K : (k2 <= -1 \/ k2 = 0 \/ 1 <= k2)%Z) by lia. destruct K as [K|[->|K]]; [apply IZR_le in K| |apply IZR_le in K]; unfold Rabs in H; destruct (Rcase_abs t); nra. }
  nra. Qed.
Theorem C69_hypotheses_met : any_order (fun l : list (list double) => rev l) /\ any_order (fun l : list (list double * list double * double) => l) /\ good_clustering c62_boxes2 c62_quarter c69_three /\ 0 <= B2R c62_quarter /\ (forall a b, In a c69_three -> In b c69_three -> surely_close true c62_boxes2 c62_quarter a b \/ surely_apart true c62_boxes2 c62_quarter a b) /\ map (fun c => map (map B2SF) (g_nodes c)) (fcreate_clusters (fun l => rev l) (fun l => l) true c62_boxes2 c62_quarter c69_three) = map (map (map B2SF)) [[c62_node; c62_query]; [c69_far]].
Proof. split; [intros l; apply Permutation_sym, Permutation_rev|]. split; [intros l; apply Permutation_refl|]. destruct (of_dyadic_val 1 (-2) ltac:(lia) ltac:(lia)) as (Fq & Vq). change (pw (-2)) with (/ 4) in Vq. 
  destruct c69_sizes as (A1 & A2 & B1 & B2).
  split; [|split; [|split]].
  - split; [apply c62_boxes2_good|]. split; [discriminate|]. split; [cbn; lia|]. split; [exact Fq|]. constructor; [apply c62_good_point; lia|]. constructor; [|constructor; [apply c62_good_point; lia|constructor]].
    constructor; [|constructor; [|constructor]]; (split; [reflexivity|]); rewrite ?A1, ?B1; cbn [fst]; rewrite !val_zero; change (pw 10) with 1024; apply Rabs_le; lra.
  - unfold c62_quarter. rewrite Vq. lra.
  - destruct (of_dyadic_val 15 (-5) ltac:(lia) ltac:(lia)) as (_ & V1). destruct (of_dyadic_val 1 (-1) ltac:(lia) ltac:(lia)) as (_ & V2). destruct (of_dyadic_val (-15) (-5) ltac:(lia) ltac:(lia)) as (_ & V3). destruct (of_dyadic_val 5 (-3) ltac:(lia) ltac:(lia)) as (_ & V4).
    change (pw (-5)) with (/ 32) in *. change (pw (-1)) with (/ 2) in *. change (pw (-3)) with (/ 8) in *.
    intros a b [<-|[<-|[<-|[]]]] [<-|[<-|[<-|[]]]].
    + left. apply (c69_close _ _ [0%Z; 0%Z]); auto. unfold c62_boxes2, c62_node. cbn [image_dist_sq]. rewrite A1, B1. lra.
    + right. apply c69_apart. rewrite V2, val_zero. rewrite Rabs_pos_eq; lra.
    + left. apply (c69_close _ _ [1%Z; 0%Z]); auto. unfold c62_boxes2, c62_node, c62_query. cbn [image_dist_sq]. rewrite A1, B1, V1, V2, V3, V4. lra.
    + right. apply c69_apart. rewrite V2, val_zero. rewrite Rabs_left; lra.
    + left. apply (c69_close _ _ [0%Z; 0%Z]); auto. unfold c62_boxes2, c69_far. cbn [image_dist_sq]. rewrite A1, B1. lra.
    + right. apply c69_apart. rewrite V4, val_zero. rewrite Rabs_left; lra.
    + left. apply (c69_close _ _ [(-1)%Z; 0%Z]); auto. unfold c62_boxes2, c62_node, c62_query. cbn [image_dist_sq]. rewrite A1, B1, V1, V2, V3, V4. lra.
    + right. apply c69_apart. rewrite V4, val_zero. rewrite Rabs_pos_eq; lra.
    + left. apply (c69_close _ _ [0%Z; 0%Z]); auto. unfold c62_boxes2, c62_query. cbn [image_dist_sq]. rewrite A1, B1. lra.
  - vm_compute. reflexivity. Qed.
Print Assumptions C69_hypotheses_met.
