(** C79: plots of identified objects in double precision.

    [fplot_identification norm norder boxes fs objects] (FloatPlot.v) is the list of what
    identify.plot.result draws; [norm] is scipy.linalg.norm, [norder] the order in which networkx lists
    the neighbours of a node.  [straight u v] is the exact length of the straight line. *)
From Coq Require Import ZArith Reals Psatz List Permutation.
From Flocq Require Import Core BinarySingleNaN.
From Verif Require Import Base BaseFacts CoordSys Graph SpecGraph GraphFacts SpecCluster CellList Dimension SpecPath Plot SpecPlot PlotFacts Float FloatFacts FloatVector FloatVectorFacts FloatMin FloatStepFacts FloatMinExtra
  FloatCell SpecFloatCell FloatCellNum FloatCellFacts FloatDistNum PropFloatCell FloatController FloatCluster SpecFloatCluster FloatClusterFacts PropFloatCluster FloatIdentify SpecFloatIdentify FloatSearchExample FloatIdentifyExample PropFloatIdentify
  FloatLine SpecFloatLine PropFloatLine SpecFloatDim FloatDimFacts PropFloatDim FloatPlot SpecFloatPlot FloatPlotFacts SpecShape.
From Coq Require Import Lra.
Import ListNotations.
Open Scope list_scope.
Open Scope R_scope.

(** *** The decomposition of a line terminates, whatever the order of the neighbours; every edge
    is drawn once or not at all, and nothing else; edges up to twice the feature size are drawn and longer
    ones are not, up to rounding. *)
Theorem C79_paths : forall norm norder (fs : double) dim (g : graph (list double) unit), good_norm norm -> (forall h u, any_order (norder h u)) -> wf_graph g ->
  (dim <= 64)%nat -> plot_size fs -> (forall x, In x (g_nodes g) -> plottable dim x) ->
  exists paths, fget_graph_paths norm norder (Some fs) g = Ok paths /\ fshows fs g paths /\ (paths = [] <-> g_edges g = []).
Proof. intros norm norder fs dim g GN NO Wf Ld Pf Pp. destruct (fpaths_spec norm GN norder (Some fs) g NO Wf) as (paths & R & Em & Ne & Nd & A & B). exists paths. split; auto. split; auto.
  assert (K : forall u v, has_edge g u v -> plottable dim u /\ plottable dim v) by (intros u v E; destruct (wf_ends Wf E); auto). split; [|split; [|split; auto]].
  - intros u v E S. apply A; auto. destruct (K u v E). apply (flonger_exact norm GN dim fs u v); auto.
  - intros u v T. destruct (B u v T) as (T1 & E & L). split; auto. split; auto. destruct (K u v E). apply (flonger_exact norm GN dim fs u v); auto. Qed.
Print Assumptions C79_paths.

(** *** Without a feature size ([None], the default of nodal_line), every edge is drawn. *)
Theorem C79_no_limit : forall norm norder (g : graph (list double) unit), good_norm norm -> (forall h u, any_order (norder h u)) -> wf_graph g ->
  exists paths, fget_graph_paths norm norder None g = Ok paths /\ (forall u v, times_drawn u v paths = 1%nat <-> has_edge g u v) /\ (forall u v, (times_drawn u v paths <= 1)%nat).
Proof. intros norm norder g GN NO Wf. destruct (fpaths_spec norm GN norder None g NO Wf) as (paths & R & Em & Ne & Nd & A & B). exists paths. split; auto. split.
  - intros u v. split; [|intros E; apply A; auto]. intros T. apply (B u v). lia.
  - intros u v. destruct (Nat.eq_dec (times_drawn u v paths) 0) as [->|N]; [lia|]. destruct (B u v N) as (-> & _). lia. Qed.
Print Assumptions C79_no_limit.

(** *** A line of which no step is too long is drawn as one path from end to end, a ring as one
    closed path. *)
Theorem C79_open_line : forall norm norder (fs : double) dim (g : graph (list double) unit) p, good_norm norm -> (forall h u, any_order (norder h u)) -> wf_graph g ->
  (dim <= 64)%nat -> plot_size fs -> (forall x, In x (g_nodes g) -> plottable dim x) -> is_line g p -> (forall u v, has_edge g u v -> straight u v <= 2 * B2R fs * (1 - bpow radix2 (-40))) ->
  fget_graph_paths norm norder (Some fs) g = Ok [p] \/ fget_graph_paths norm norder (Some fs) g = Ok [rev p].
Proof. intros norm norder fs dim g p GN NO Wf Ld Pf Pp L S. apply paths_line; auto; [apply flonger_sym; exact GN|]. intros u v E. destruct (wf_ends Wf E). apply (flonger_exact norm GN dim fs u v); auto. Qed.
Print Assumptions C79_open_line.
Theorem C79_closed_loop : forall norm norder (fs : double) dim (g : graph (list double) unit) p, good_norm norm -> (forall h u, any_order (norder h u)) -> wf_graph g ->
  (dim <= 64)%nat -> plot_size fs -> (forall x, In x (g_nodes g) -> plottable dim x) -> is_ring g p -> (forall u v, has_edge g u v -> straight u v <= 2 * B2R fs * (1 - bpow radix2 (-40))) ->
  exists x q, fget_graph_paths norm norder (Some fs) g = Ok [x :: q ++ [x]] /\ is_ring g (x :: q).
Proof. intros norm norder fs dim g p GN NO Wf Ld Pf Pp L S. apply (paths_ring norder NO (flonger_than norm (Some fs)) (flonger_sym norm GN (Some fs)) g p); auto. intros u v E. destruct (wf_ends Wf E). apply (flonger_exact norm GN dim fs u v); auto. Qed.
Print Assumptions C79_closed_loop.

(** *** A line in a box: with periodic boundary conditions and sides longer than three feature
    sizes (and an allowance for rounding), exactly the edges across the boundary are left out; without
    periodic boundary conditions, none. *)
Theorem C79_cut_at_boundary : forall norm norder per boxes (fs : double) d (g : graph (list double) unit), good_norm norm -> (forall h u, any_order (norder h u)) -> wf_graph g ->
  (length boxes <= 64)%nat -> plot_size fs -> (forall x, In x (g_nodes g) -> plottable (length boxes) x) ->
  0 <= d <= 2 * B2R fs * (1 - bpow radix2 (-40)) -> (per = true -> Forall (fun b => 2 * B2R fs * (1 + bpow radix2 (-40)) + d < fbox_size b) boxes) ->
  (forall u v, has_edge g u v -> within_dist per boxes u v d) ->
  exists paths, fget_graph_paths norm norder (Some fs) g = Ok paths /\ fcut_at_boundary d g paths /\
    (per = false -> forall u v, has_edge g u v -> times_drawn u v paths = 1%nat).
Proof. intros norm norder per boxes fs d g GN NO Wf Lb Pf Pp (Hd & Hd2) Sz We. destruct (fpaths_spec norm GN norder (Some fs) g NO Wf) as (paths & R & Em & Ne & Nd & A & B). exists paths. split; auto.
  assert (K : forall u v, has_edge g u v -> (flonger_than norm (Some fs) u v = false <-> straight u v <= d)) by (intros u v E; destruct (wf_ends Wf E); apply (cut_exact norm per boxes); auto). split; [split|].
  - intros u v E S. apply A; auto. apply K; auto.
  - intros u v T. destruct (B u v T) as (T1 & E & L). split; auto. split; auto. apply K; auto.
  - intros -> u v E. apply A; auto. apply K; auto. destruct (We u v E) as (ks & Lk & Kz & Hi). destruct (wf_ends Wf E) as (Iu & Iv). rewrite straight_sqrt, (straight_zero boxes u v ks); auto; [|apply (Pp u Iu)|apply (Pp v Iv)]. rewrite <- (sqrt_pow2 d) by auto. apply sqrt_le_1_alt. exact Hi. Qed.
Print Assumptions C79_cut_at_boundary.

(** *** In two and three dimensions every list of objects (of which lines have nodes, and the others
    positions) can be plotted, and every object is shown; in other dimensions the plot fails. *)
Lemma plot_shape_ok norm norder (fs : double) dim i : good_norm norm -> (forall h u, any_order (norder h u)) -> (dim <= 64)%nat -> plot_size fs -> fi_positions i <> [] ->
  (forall g, fi_shape i = Some (FNodalLine g) -> wf_graph g /\ g_nodes g <> [] /\ forall x, In x (g_nodes g) -> plottable dim x) ->
  exists ds, fplot_shape norm norder fs i = Ok ds /\ fshown fs i ds.
Proof. intros GN NO Ld Pf Ne G. unfold fplot_shape, fshown. destruct (fi_shape i) as [[p|g]|].
  - eexists. split; reflexivity.
  - destruct (G g eq_refl) as (Wf & Nn & Pp). destruct (C79_paths norm norder fs dim g GN NO Wf Ld Pf Pp) as (paths & R & Sh & Em). unfold fplot_line. rewrite R. cbn [bind]. destruct paths as [|p paths].
    + rewrite (proj1 Em eq_refl). cbn [length Nat.eqb]. destruct (g_nodes g); [congruence|]. eexists. split; reflexivity.
    + eexists. split; [reflexivity|]. destruct (g_edges g) as [|e es]; [exfalso; discriminate (proj2 Em eq_refl)|]. cbn [length Nat.eqb]. exists (p :: paths). auto.
  - destruct (fi_positions i); [congruence|]. eexists. split; reflexivity. Qed.
Theorem C79_result : forall norm norder boxes (fs : double) objects, good_norm norm -> (forall h u, any_order (norder h u)) -> plot_size fs ->
  (forall i, In i objects -> fi_positions i <> [] /\ forall g, fi_shape i = Some (FNodalLine g) -> wf_graph g /\ g_nodes g <> [] /\ forall x, In x (g_nodes g) -> plottable (length boxes) x) ->
  if ((length boxes =? 2) || (length boxes =? 3))%nat
  then exists dss, fplot_identification norm norder boxes fs objects = Ok (concat dss) /\ Forall2 (fshown fs) objects dss
  else fplot_identification norm norder boxes fs objects = Err AssertionError.
Proof. intros norm norder boxes fs objects GN NO Pf G. unfold fplot_identification, fsetup_plot. rewrite orb_comm. destruct (_ || _)%bool eqn:D; [|reflexivity]. cbn [bind].
  assert (Ld : (length boxes <= 64)%nat) by (apply orb_true_iff in D as [D|D]; apply Nat.eqb_eq in D; rewrite D; lia).
  assert (X : exists dss, sequence (map (fplot_shape norm norder fs) objects) = Ok dss /\ Forall2 (fshown fs) objects dss).
  { revert G. induction objects as [|i objects IH]; intros G; [exists []; split; [reflexivity|constructor]|]. destruct (G i (or_introl eq_refl)) as (Ne & Gr).
    destruct (plot_shape_ok norm norder fs (length boxes) i GN NO Ld Pf Ne Gr) as (ds & E & Sh). destruct IH as (dss & E' & F); [intros j Ij; apply G; right; auto|].
    exists (ds :: dss). cbn [map sequence]. rewrite E. cbn [bind]. rewrite E'. split; [reflexivity|constructor; auto]. }
  destruct X as (dss & E & F). exists dss. rewrite E. auto. Qed.
Print Assumptions C79_result.

(** *** Everything that the identification returns in two or three dimensions, in double precision,
    can be plotted; of the identified lines exactly the edges across the boundary are left out. *)
Theorem C79_identified : forall norm norder le env per boxes (fs : double) m M positions, good_norm norm -> (forall h u, any_order (norder h u)) ->
  good_line_env le -> good_fenvironment env -> total_svd (fe_svd env) -> good_clustering boxes fs positions -> moderate_size M boxes fs positions -> bpow radix2 (-400) <= B2R fs ->
  (m = FBallistic -> forall x y, In x positions -> In y positions -> same_place x y \/ clearly_different per boxes x y) ->
  length boxes = 2%nat \/ length boxes = 3%nat ->
  exists objects dss, frun_from_positions (with_line env (fevaluate_line le per boxes fs m)) per boxes fs positions = Ok objects /\
    fplot_identification norm norder boxes fs objects = Ok (concat dss) /\ Forall2 (fshown fs) objects dss /\
    let d := B2R fs + dist_error boxes (B2R fs) in
    (d <= 2 * B2R fs * (1 - bpow radix2 (-40)) -> (per = true -> Forall (fun b => 2 * B2R fs * (1 + bpow radix2 (-40)) + d < fbox_size b) boxes) ->
     Forall2 (fun i ds => forall g, fi_shape i = Some (FNodalLine g) -> g_edges g <> [] -> exists paths, ds = map FLines paths /\ fcut_at_boundary d g paths) objects dss).
Proof. intros norm norder le env per boxes fs m M positions GN NO Le Env Svd GC Ms Lf Dif D. assert (Fp : 0 < B2R fs) by (pose proof (pw_pos (-400)); lra).
  destruct (C73_identified le env per boxes fs m M positions Le Env Svd GC Ms Fp Dif) as (objects & E & O3). exists objects. pose proof GC as (Gb & Nb & Lb & Ff & Gp). pose proof Ms as (HM & Uf & Hb & Hp & Ln).
  assert (Pf : plot_size fs) by (split; [exact Ff|]; split; [exact Lf|]; eapply Rle_trans; [exact Uf|apply pw_le; lia]).
  assert (HO : any_order (fe_order env)) by apply Env. assert (EO : any_order (fe_edges env)) by apply Env. pose proof (C69_partition (fe_order env) (fe_edges env) per boxes fs positions HO EO GC) as (_ & _ & Pos & Nes).
  assert (Pl : forall x, In x positions -> plottable (length boxes) x).
  { intros x Ix. rewrite Forall_forall in Gp, Hp. specialize (Gp x Ix). specialize (Hp x Ix). split; [symmetry; apply (F2_length _ _ _ Gp)|]. apply Forall_forall. intros z Iz. rewrite Forall_forall in Hp. split.
    - clear - Gp Iz. induction Gp as [|b y bs ys (Fy & _) F IH]; [destruct Iz|]. destruct Iz as [->|Iz]; auto.
    - eapply Rle_trans; [apply Hp; exact Iz|]. eapply Rle_trans; [exact HM|]. apply pw_le. lia. }
  set (clusters := fcreate_clusters (fe_order env) (fe_edges env) per boxes fs positions) in *.
  assert (Ok' : forall i, In i objects -> fi_positions i <> [] /\ forall g, fi_shape i = Some (FNodalLine g) -> wf_graph g /\ g_nodes g <> [] /\ (forall x, In x (g_nodes g) -> plottable (length boxes) x) /\ forall u v, has_edge g u v -> within_dist per boxes u v (B2R fs + dist_error boxes (B2R fs))).
  { assert (Sub : forall c, In c clusters -> g_nodes c <> [] /\ forall x, In x (g_nodes c) -> In x positions) by (intros c Ic; split; [apply (Nes c Ic)|intros x; apply (Pos c x Ic)]). clear - O3 Sub Pl. induction O3 as [|c i cs is Oc F IH]; [intros i []|]. intros j [<-|Ij]; [|apply IH; auto; intros c' Ic'; apply Sub; right; exact Ic'].
    destruct (Sub c (or_introl eq_refl)) as (Ne & Ps). destruct Oc as (Ep & Sh). split; [rewrite Ep; exact Ne|]. intros g Eg. destruct (fi_dimension i) as [[|[|[|[|]]]]|]; try congruence; try contradiction.
    - destruct Sh as (a & Ea & _). congruence.
    - destruct Sh as (r & Er & (W & (P1 & P2) & Dm & Wd) & _). rewrite Er in Eg. injection Eg as <-. split; [exact W|]. split; [|split; [intros x Ix; apply Pl, Ps, P1; exact Ix|exact Wd]].
      destruct (g_nodes c) as [|x l] eqn:En; [congruence|]. intros X. destruct (Dm x) as [I|(y & I & _)]; [rewrite En; left; reflexivity| |]; rewrite X in I; destruct I. }
  assert (R := C79_result norm norder boxes fs objects GN NO Pf). replace ((length boxes =? 2) || (length boxes =? 3))%nat with true in R by (destruct D as [-> | ->]; reflexivity).
  destruct R as (dss & Ed & Fd). { intros i Ii. destruct (Ok' i Ii) as (A & B). split; [exact A|]. intros g Eg. destruct (B g Eg) as (B1 & B2 & B3 & _). auto. }
  assert (Each : exists dss', sequence (map (fplot_shape norm norder fs) objects) = Ok dss' /\ Forall2 (fshown fs) objects dss').
  { clear Ed Fd dss E O3. induction objects as [|i objects IH]; [exists []; split; [reflexivity|constructor]|]. destruct (Ok' i (or_introl eq_refl)) as (Ne & Gr).
    destruct (plot_shape_ok norm norder fs (length boxes) i GN NO Lb Pf Ne) as (ds & E & Sh). { intros g Eg. destruct (Gr g Eg) as (B1 & B2 & B3 & _). auto. }
    destruct IH as (dss & E' & F); [intros j Ij; apply Ok'; right; auto|]. exists (ds :: dss). cbn [map sequence]. rewrite E. cbn [bind]. rewrite E'. split; [reflexivity|constructor; auto]. }
  destruct Each as (dss' & Es & Fs). exists dss'. split; [exact E|]. split.
  { unfold fplot_identification, fsetup_plot. replace ((length boxes =? 3) || (length boxes =? 2))%nat with true by (destruct D as [-> | ->]; reflexivity). cbn [bind]. rewrite Es. reflexivity. }
  split; [exact Fs|]. cbv zeta. intros Hd Sz. set (d := B2R fs + dist_error boxes (B2R fs)) in *.
  assert (d0 : 0 <= d) by (unfold d; apply Rplus_le_le_0_compat; [lra|apply error_nonneg; [exact Gb|lra]]).
  clear E O3 Ed Fd Fs. revert dss' Es Ok'. induction objects as [|i objects IH]; intros dss' Es Ok'; cbn [map sequence] in Es.
  - injection Es as <-. constructor.
  - destruct (fplot_shape norm norder fs i) as [ds|] eqn:E1; [|discriminate]. cbn [bind] in Es. destruct (sequence (map (fplot_shape norm norder fs) objects)) as [dss0|] eqn:E2; [|discriminate]. cbn [bind] in Es. injection Es as <-.
    constructor; [|apply IH; [reflexivity|intros j Ij; apply Ok'; right; exact Ij]]. intros g Eg Ng. destruct (Ok' i (or_introl eq_refl)) as (_ & Gr). destruct (Gr g Eg) as (W & _ & Pp & Wd).
    destruct (C79_cut_at_boundary norm norder per boxes fs d g GN NO W Lb Pf Pp (conj d0 Hd) Sz Wd) as (paths & Rp & Cut & _). destruct (fpaths_spec norm GN norder (Some fs) g NO W) as (paths' & R' & Em & _). rewrite Rp in R'. injection R' as <-.
    exists paths. split; [|exact Cut]. unfold fplot_shape in E1. rewrite Eg in E1. unfold fplot_line in E1. rewrite Rp in E1. cbn [bind] in E1. destruct paths as [|p paths]; [elim Ng; apply Em; reflexivity|]. injection E1 as <-. reflexivity. Qed.
Print Assumptions C79_identified.

(** hypotheses met: a ring of four positions in the periodic unit square that goes across the
    boundary, drawn as a line with three segments for the feature size 1/4, and as a closed path for 1/2;
    a line of three positions; an identification in two dimensions. *)
Definition c79_p (n : Z) : fpoint := q2d n 2.
Definition c79_ring : graph (list double) unit := mk_graph [c79_p 0; c79_p 1; c79_p 2; c79_p 3] [(c79_p 0, c79_p 1, tt); (c79_p 1, c79_p 2, tt); (c79_p 2, c79_p 3, tt); (c79_p 3, c79_p 0, tt)].
Definition c79_line : graph (list double) unit := mk_graph [c79_p 0; c79_p 1; c79_p 2] [(c79_p 0, c79_p 1, tt); (c79_p 1, c79_p 2, tt)].
Definition c79_half : double := of_dyadic 1 (-1).
Definition c79_order : graph (list double) unit -> list double -> list (list double) -> list (list double) := fun _ _ l => l.
Lemma c79_distinct n m : (0 <= n <= 3)%Z -> (0 <= m <= 3)%Z -> n <> m -> c79_p n <> c79_p m.
Proof. intros Hn Hm N E. assert (X : of_dyadic n (-2) = of_dyadic m (-2)) by (exact (f_equal (fun l => nth 0 l fzero) E)). apply N. apply eq_IZR. pose proof (proj2 (quarter_val n Hn)) as A. rewrite X, (proj2 (quarter_val m Hm)) in A. lra. Qed.
Lemma c79_straight n m : (0 <= n <= 3)%Z -> (0 <= m <= 3)%Z -> straight (c79_p n) (c79_p m) = Rabs (IZR n - IZR m) / 4.
Proof. intros Hn Hm. unfold straight, c79_p, q2d. cbn [place map map2]. rewrite (proj2 (quarter_val n Hn)), (proj2 (quarter_val m Hm)). unfold rlength. cbn [map fold_right]. set (x := B2R (of_dyadic 2 (-2))). clearbody x.
  replace ((IZR n / 4 - IZR m / 4) ^ 2 + ((x - x) ^ 2 + 0)) with (Rsqr ((IZR n - IZR m) / 4)) by (unfold Rsqr; field). rewrite sqrt_Rsqr_abs. unfold Rdiv. rewrite Rabs_mult. f_equal. apply Rabs_pos_eq. lra. Qed.
Lemma c79_plottable n : (0 <= n <= 3)%Z -> plottable 2 (c79_p n).
Proof. intros Hn. split; [reflexivity|]. assert (K : forall k, (0 <= k <= 3)%Z -> is_finite (of_dyadic k (-2)) = true /\ Rabs (B2R (of_dyadic k (-2))) <= pw 400).
  { intros k Hk. destruct (quarter_val k Hk) as (F & V). split; [exact F|]. rewrite V. apply Rle_trans with (pw 0); [|apply pw_le; lia]. change (pw 0) with 1. destruct Hk as (H0 & H3). apply IZR_le in H0, H3. apply Rabs_le. lra. }
  constructor; [apply K; exact Hn|]. constructor; [apply K; lia|constructor]. Qed.
Lemma c79_next n m : (0 <= n <= 3)%Z -> (0 <= m <= 3)%Z -> (Z.abs (n - m) = 1 \/ Z.abs (n - m) = 3)%Z -> within_dist true c74_boxes (c79_p n) (c79_p m) (/ 4).
Proof. intros Hn Hm A. destruct ex_size as (Es & _). assert (K : exists k, Rabs (IZR n / 4 - IZR m / 4 - IZR k) <= / 4).
  { destruct A as [A|A]; [exists 0%Z|exists (if (n <? m)%Z then -1 else 1)%Z; destruct (n <? m)%Z eqn:L].
    - assert (B1 : IZR (n - m) <= 1) by (apply IZR_le; lia). assert (B2 : -1 <= IZR (n - m)) by (apply IZR_le; lia). rewrite minus_IZR in *. apply Rabs_le. lra.
    - apply Z.ltb_lt in L. assert (B1 : IZR (n - m) = -3) by (f_equal; lia). rewrite minus_IZR in *. apply Rabs_le. lra.
    - apply Z.ltb_ge in L. assert (B1 : IZR (n - m) = 3) by (f_equal; lia). rewrite minus_IZR in *. apply Rabs_le. lra. }
  destruct K as (k & K). exists [k; 0%Z]. split; [reflexivity|]. split; [discriminate|]. unfold c79_p, q2d. cbn [c74_boxes image_dist_sq]. rewrite Es, (proj2 (quarter_val n Hn)), (proj2 (quarter_val m Hm)). set (x := B2R (of_dyadic 2 (-2))). clearbody x.
  rewrite <- (pow2_abs (IZR n / 4 - IZR m / 4 - IZR k * 1)). rewrite Rmult_1_r. pose proof (Rabs_pos (IZR n / 4 - IZR m / 4 - IZR k)). set (y := Rabs _) in *. clearbody y. nra. Qed.
#[local] Opaque c79_p.
Lemma c79_edge u v : has_edge c79_ring u v -> exists n m, (0 <= n <= 3)%Z /\ (0 <= m <= 3)%Z /\ (Z.abs (n - m) = 1 \/ Z.abs (n - m) = 3)%Z /\ u = c79_p n /\ v = c79_p m.
Proof. intros (w & [I|I]); destruct I as [E|[E|[E|[E|[]]]]]; inversion E; subst.
  - exists 0%Z, 1%Z. repeat split; try reflexivity; lia.
  - exists 1%Z, 2%Z. repeat split; try reflexivity; lia.
  - exists 2%Z, 3%Z. repeat split; try reflexivity; lia.
  - exists 3%Z, 0%Z. repeat split; try reflexivity; lia.
  - exists 1%Z, 0%Z. repeat split; try reflexivity; lia.
  - exists 2%Z, 1%Z. repeat split; try reflexivity; lia.
  - exists 3%Z, 2%Z. repeat split; try reflexivity; lia.
  - exists 0%Z, 3%Z. repeat split; try reflexivity; lia. Qed.
Lemma c79_nodup3 : NoDup [c79_p 0; c79_p 1; c79_p 2].
Proof. repeat constructor; cbn [In]; intros X; repeat (destruct X as [X|X]; [revert X; apply c79_distinct; lia|]); exact X. Qed.
Lemma c79_nodup4 : NoDup [c79_p 0; c79_p 1; c79_p 2; c79_p 3].
Proof. repeat constructor; cbn [In]; intros X; repeat (destruct X as [X|X]; [revert X; apply c79_distinct; lia|]); exact X. Qed.
Fixpoint simple_b (l : list (list double * list double * unit)) : bool :=
  match l with [] => true | e :: l => forallb (fun f => negb (joins (end1 e) (end2 e) f)) l && simple_b l end.
Lemma simple_check l : simple_b l = true -> ForallOrdPairs apart l.
Proof. induction l as [|e l IH]; intros E; [constructor|]. cbn [simple_b] in E. apply andb_true_iff in E as (E1 & E2). constructor; auto. apply Forall_forall. intros f I. rewrite forallb_forall in E1. specialize (E1 f I). apply negb_true_iff in E1. exact E1. Qed.
Theorem C79_hypotheses_met : good_norm fnorm /\ (forall h u, any_order (c79_order h u)) /\
  (wf_graph c79_ring /\ (forall x, In x (g_nodes c79_ring) -> plottable (length c74_boxes) x) /\ plot_size c73_fs /\ plot_size c79_half /\
   / 4 <= 2 * B2R c73_fs * (1 - bpow radix2 (-40)) /\ Forall (fun b => 2 * B2R c73_fs * (1 + bpow radix2 (-40)) + / 4 < fbox_size b) c74_boxes /\
   (forall u v, has_edge c79_ring u v -> within_dist true c74_boxes u v (/ 4)) /\ straight (c79_p 3) (c79_p 0) = 3 / 4 /\
   fget_graph_paths fnorm c79_order (Some c73_fs) c79_ring = Ok [[c79_p 0; c79_p 1; c79_p 2; c79_p 3]; [c79_p 0]] /\
   is_ring c79_ring [c79_p 0; c79_p 1; c79_p 2; c79_p 3] /\ (forall u v, has_edge c79_ring u v -> straight u v <= 2 * B2R c79_half * (1 - bpow radix2 (-40)))) /\
  (wf_graph c79_line /\ is_line c79_line [c79_p 0; c79_p 1; c79_p 2] /\ (forall u v, has_edge c79_line u v -> straight u v <= 2 * B2R c73_fs * (1 - bpow radix2 (-40)))) /\
  (good_line_env simple_le /\ good_fenvironment simple_fenv /\ total_svd (fe_svd simple_fenv) /\ good_clustering c74_boxes c73_fs c74_corner /\ moderate_size 1 c74_boxes c73_fs c74_corner /\ length c74_boxes = 2%nat /\
   B2R c73_fs + dist_error c74_boxes (B2R c73_fs) <= 2 * B2R c73_fs * (1 - bpow radix2 (-40))).
Proof. destruct ex_size as (Es & El). assert (Vf : B2R c73_fs = / 4) by (unfold c73_fs; rewrite (proj2 (quarter_val 1 ltac:(lia))); lra). pose proof (proj1 (quarter_val 1 ltac:(lia))) as Ff.
  destruct (of_dyadic_val 1 (-1) ltac:(lia) ltac:(lia)) as (Fh & Vh). fold c79_half in Fh, Vh. change (bpow radix2 (-1)) with (/ 2) in Vh. rewrite Rmult_1_l in Vh.
  assert (Tiny : pw (-400) <= / 4) by (change (/ 4) with (pw (-2)); apply pw_le; lia). assert (Big : 1 <= pw 1000) by (change 1 with (pw 0); apply pw_le; lia).
  split; [apply fnorm_good|]. split; [intros h u l; apply Permutation_refl|]. split; [|split].
  - split; [|split; [|split; [|split; [|split; [|split; [|split; [|split; [|split; [|split]]]]]]]]].
    + constructor.
      * exact c79_nodup4.
      * intros u v w I. cbn [g_edges c79_ring] in I. cbn [g_nodes c79_ring]. destruct I as [E|[E|[E|[E|[]]]]]; inversion E; subst; cbn [In]; tauto.
      * cbn [g_edges c79_ring]. apply simple_check. vm_compute. reflexivity.
    + intros x I. cbn [g_nodes c79_ring] in I. destruct I as [<-|[<-|[<-|[<-|[]]]]]; apply c79_plottable; lia.
    + split; [exact Ff|]. rewrite Vf. lra.
    + split; [exact Fh|]. rewrite Vh. lra.
    + rewrite Vf. change (bpow radix2 (-40)) with (/ 1099511627776). lra.
    + assert (X : 2 * B2R c73_fs * (1 + bpow radix2 (-40)) + / 4 < fbox_size (B754_zero false, fone)) by (rewrite Es, Vf; change (bpow radix2 (-40)) with (/ 1099511627776); lra). constructor; [exact X|constructor; [exact X|constructor]].
    + intros u v E. destruct (c79_edge u v E) as (n & m & Hn & Hm & A & -> & ->). apply c79_next; auto.
    + rewrite c79_straight by lia. rewrite Rabs_pos_eq; lra.
    + assert (B : match fget_graph_paths fnorm c79_order (Some c73_fs) c79_ring with Ok l => eqb l [[c79_p 0; c79_p 1; c79_p 2; c79_p 3]; [c79_p 0]] | _ => false end = true) by (vm_compute; reflexivity).
      destruct (fget_graph_paths _ _ _ _) as [l|]; [|discriminate B]. f_equal. unfold eqb in B. destruct (eq_dec l _) as [X|]; [exact X|discriminate B].
    + apply ring_closed. split; [exact c79_nodup4|]. split; [cbn; lia|]. split; [intros x; reflexivity|]. intros u v. cbn [app]. rewrite !next_cons. split.
      * intros (w & [[E|[E|[E|[E|[]]]]]|[E|[E|[E|[E|[]]]]]]); inversion E; subst; tauto.
      * intros [(-> & ->)|[(-> & ->)|[(-> & ->)|[(-> & ->)|[(-> & ->)|[(-> & ->)|[(-> & ->)|[(-> & ->)|X]]]]]]]]; try (exists tt; cbn [g_edges c79_ring In]; tauto). exfalso. eapply next_one. exact X.
    + intros u v E. destruct (c79_edge u v E) as (n & m & Hn & Hm & A & -> & ->). rewrite c79_straight by auto. rewrite Vh. change (bpow radix2 (-40)) with (/ 1099511627776). assert (B : Rabs (IZR n - IZR m) <= 3) by (rewrite <- minus_IZR, <- abs_IZR; apply IZR_le; lia). lra.
  - split; [|split].
    + constructor.
      * exact c79_nodup3.
      * intros u v w I. cbn [g_edges c79_line] in I. cbn [g_nodes c79_line]. destruct I as [E|[E|[]]]; inversion E; subst; cbn [In]; tauto.
      * cbn [g_edges c79_line]. apply simple_check. vm_compute. reflexivity.
    + split; [exact c79_nodup3|]. split; [cbn; lia|]. split; [intros x; reflexivity|]. intros u v. rewrite !next_cons. split.
      * intros (w & [[E|[E|[]]]|[E|[E|[]]]]); inversion E; subst; tauto.
      * intros [(-> & ->)|[(-> & ->)|[(-> & ->)|[(-> & ->)|X]]]]; try (exists tt; cbn [g_edges c79_line In]; tauto). exfalso. eapply next_one. exact X.
    + assert (St : forall n m, (0 <= n <= 3)%Z -> (0 <= m <= 3)%Z -> (Z.abs (n - m) = 1)%Z -> straight (c79_p n) (c79_p m) <= 2 * B2R c73_fs * (1 - bpow radix2 (-40))).
      { intros n m Hn Hm A. rewrite c79_straight by auto. rewrite Vf. change (bpow radix2 (-40)) with (/ 1099511627776). assert (B : Rabs (IZR n - IZR m) <= 1) by (rewrite <- minus_IZR, <- abs_IZR; apply IZR_le; lia). lra. }
      intros u v (w & [[E|[E|[]]]|[E|[E|[]]]]); inversion E; subst; apply St; lia.
  - destruct C73_hypotheses_met as (A1 & A2 & A3 & _). destruct corner_setting as (_ & _ & GC & Ms & _). repeat (split; [assumption|]). split; [reflexivity|].
    unfold dist_error, total_size. cbn [c74_boxes map fold_right]. rewrite Es, Vf. change (bpow radix2 (-40)) with (/ 1099511627776). change (bpow radix2 (-43)) with (/ 8796093022208). change (bpow radix2 (-39)) with (/ 549755813888). lra. Qed.
Print Assumptions C79_hypotheses_met.
