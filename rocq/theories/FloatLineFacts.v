(** Facts about the line evaluation in double precision. *)
From Coq Require Import ZArith Reals Psatz List Permutation.
From Flocq Require Import Core BinarySingleNaN.
From Verif Require Import Base BaseFacts CoordSys Graph SpecGraph GraphFacts Paths SpecPath PathFacts SpecCluster Ballistic BallisticFacts ShortestPath ShortestPathFacts
  Float FloatFacts FloatVector FloatVectorFacts FloatMin FloatCell SpecFloatCell FloatCellNum FloatCellFacts PropFloatCell FloatDistNum FloatCluster SpecFloatCluster FloatClusterFacts PropFloatCluster FloatIdentify SpecFloatIdentify FloatLine SpecFloatLine FloatLineNum.
From Coq Require Import Lra.
Import ListNotations.
Open Scope list_scope.
Open Scope R_scope.

(** ** the shortest-path method *)
Lemma dtenth_pos : fin dtenth /\ 0 < val dtenth.
Proof. destruct (of_dyadic_val 3602879701896397 (-55) ltac:(lia) ltac:(lia)) as (F & V). split; [exact F|]. unfold dtenth. rewrite V. apply Rmult_lt_0_compat; [lra|apply bpow_gt_0]. Qed.
Lemma of_int_pos n : (0 < n <= 2 ^ 53)%Z -> fin (of_int n) /\ 0 < val (of_int n).
Proof. intros H. destruct (of_dyadic_val n 0 ltac:(lia) ltac:(lia)) as (F & V). split; [exact F|]. unfold of_int. rewrite V. apply Rmult_lt_0_compat; [apply IZR_lt; lia|apply bpow_gt_0]. Qed.
Lemma dhalf_pos : fin dhalf /\ 0 < val dhalf.
Proof. destruct (of_dyadic_val 1 (-1) ltac:(lia) ltac:(lia)) as (F & V). split; [exact F|]. unfold dhalf. rewrite V. apply Rmult_lt_0_compat; [lra|apply bpow_gt_0]. Qed.
Lemma float_ops_good le fs : good_ops nonneg (float_ops le fs).
Proof. split; cbn [float_ops wo_half wo_tenth wo_ten wo_zero]; try (intros w; intros).
  - apply nonneg_mul_r; try apply dhalf_pos; auto.
  - apply nonneg_mul_r; try apply dtenth_pos; auto.
  - apply nonneg_mul_r; try (apply of_int_pos; lia); auto.
  - reflexivity. Qed.
Lemma double_shortest_path_ok le fs (g : graph fpoint double) : good_line_env le -> wf_graph g -> connected g -> fin fs -> 0 < val fs ->
  (forall e, In e (g_edges g) -> nonneg (snd e)) -> g_nodes g <> [] ->
  exists r, fevaluate_line_shortest_path le fs g = Ok r /\ wf_graph r /\ part_of r g /\ connected r /\ dominates g (g_nodes r).
Proof. intros (Ord & Sp & Pw) Wf Cn Ff Fp Dp Ne. unfold fevaluate_line_shortest_path.
  destruct (shortest_path_with_ok nonneg (le_order le) (le_spath le) (float_ops le fs) g Ord Sp (float_ops_good le fs) Wf Cn) as (r & E & (R1 & R2 & R3) & D); auto.
  - intros e I. cbn [float_ops wo_init]. apply nonneg_mul; auto. unfold fdistance_func. assert (X : nonneg (fdiv (snd e) fs)) by (apply nonneg_div; auto). apply nonneg_add; auto. apply Pw. exact X.
  - exists r. auto 8. Qed.

(** ** the ballistic method *)
Lemma fargmax_in {A} (l : list (A * double)) a : fargmax l = Some a -> In a (map fst l).
Proof. destruct l as [|[b x] l]; [discriminate|]. cbn [fargmax]. intros [= <-]. cbn [map fst]. revert b x. induction l as [|[c y] l IH]; intros b x; [left; auto|]. cbn [fargmax_from map fst]. destruct (better x y).
  - right. apply IH.
  - destruct (IH b x) as [X|X]; [left; exact X|right; right; exact X]. Qed.
Lemma fargmax_none {A} (l : list (A * double)) : fargmax l = None -> l = [].
Proof. destruct l as [|[b x] l]; [auto|discriminate]. Qed.
Lemma map_snd_combine_seq {A} (l : list A) : forall n, map snd (combine (seq n (length l)) l) = l.
Proof. induction l as [|a l IH]; intros n; [reflexivity|]. cbn. f_equal. apply IH. Qed.

Section Ball.
  Variables (le : line_env) (per : bool) (boxes : list fbox) (fs : double) (g : graph fpoint double).
  Hypothesis Gb : Forall good_box boxes.
  Hypothesis Lb : (length boxes <= 64)%nat.
  Hypothesis Hb : Forall (fun b => Rabs (B2R (fst b)) <= bpow radix2 20 /\ Rabs (B2R (snd b)) <= bpow radix2 20) boxes.
  Hypothesis Wf : wf_graph g.
  Hypothesis Mp : forall p, In p (g_nodes g) -> moderate_pos boxes p.
  Definition fstep (x y : fpoint) : Prop := flt fzero (fdist per boxes x y) = true.
  Hypothesis Sp : forall x, In x (g_nodes g) -> exists y, has_edge g x y /\ fstep x y.

  Lemma fdelta_ok x y : has_edge g x y -> exists v, fvector per boxes x y = Ok v /\ chkfinite v = true /\ fnorm v = fdist per boxes x y.
  Proof. intros E. destruct (wf_ends Wf E) as (Ix & Iy). destruct (vector_dist per boxes Gb Lb Hb x y (Mp x Ix) (Mp y Iy)) as (v & Ev & _ & Fv & Nv). exists v. split; auto. split; auto. apply forallb_forall. rewrite Forall_forall in Fv. exact Fv. Qed.
  Lemma fdeltas_ok x l : (forall y, In y l -> has_edge g x y) -> exists vs, sequence (map (fvector per boxes x) l) = Ok vs /\ forallb chkfinite vs = true /\ Forall2 (fun y v => fnorm v = fdist per boxes x y) l vs.
  Proof. induction l as [|y l IH]; cbn; intros E; [exists []; auto|]. destruct (fdelta_ok x y (E y (or_introl eq_refl))) as (v & -> & C & N). destruct IH as (vs & -> & C' & F); [intros; apply E; auto|]. cbn. exists (v :: vs). cbn. rewrite C. auto. Qed.
  Lemma fdirections_in x l vs q u : Forall2 (fun y v => fnorm v = fdist per boxes x y) l vs -> In (q, u) (fdirections l vs) -> In q l /\ fstep x q.
  Proof. induction 1 as [|y v l vs D F IH]; cbn [fdirections]; [intros []|]. rewrite D. destruct (flt fzero (fdist per boxes x y)) eqn:L; cbn.
    - intros [[= <- <-]|I]; [|apply IH in I; tauto]. split; auto.
    - intros I. apply IH in I. tauto. Qed.
  Lemma fdirections_some x l vs q : Forall2 (fun y v => fnorm v = fdist per boxes x y) l vs -> In q l -> fstep x q -> fdirections l vs <> [].
  Proof. intros F I N. induction F as [|y v l vs D F IH]; [destruct I|]. cbn [fdirections]. rewrite D. destruct (flt fzero (fdist per boxes x y)) eqn:L; [discriminate|]. destruct I as [<-|I]; auto. unfold fstep in N. congruence. Qed.

  Lemma fcandidates_in dir us q u a : In (q, u, a) (fcandidates le dir us) -> In (q, u) us.
  Proof. unfold fcandidates. intros I. apply filter_In in I as (I & _). apply in_map_iff in I as (iqu & [= Eq _] & I). rewrite <- (map_snd_combine_seq us 0). apply in_map_iff. exists iqu. split; auto. Qed.
  Lemma fnext_ok result node dir : In node (g_nodes g) -> exists r, fget_next_pos le per boxes fs g result node dir = Ok r /\
    match r with
    | Some (q, _) => has_edge g node q /\ fstep node q
    | None => dir <> None
    end.
  Proof. intros I. destruct (Sp node I) as (y & Ey & Ny). unfold fget_next_pos. pose proof (proj2 (in_neighbors g node y) Ey) as Iy.
    assert (En : forall q, In q (neighbors g node) -> has_edge g node q) by (intros q Iq; apply in_neighbors; auto). destruct (neighbors g node) as [|q0 l0]; [destruct Iy|]. set (l := q0 :: l0) in *.
    destruct (fdeltas_ok node l En) as (vs & -> & Ck & F). cbn [bind]. rewrite Ck. cbn [negb]. pose proof (fdirections_some node l vs y F Iy Ny) as Nd. pose proof (fun q u => fdirections_in node l vs q u F) as Di.
    destruct (fdirections l vs) as [|d0 ds] eqn:Ed; [congruence|]. rewrite <- Ed in *. set (us := fdirections l vs) in *.
    assert (G : forall (o : option (fpoint * fpoint * double)), (forall q u a, o = Some (q, u, a) -> has_edge g node q /\ fstep node q) -> (o = None -> dir <> None) ->
      exists r, match o with None => Ok None | Some (q, u, _) => Ok (Some (q, u)) end = Ok r /\ match r with Some (q, _) => has_edge g node q /\ fstep node q | None => dir <> None end).
    { intros [[[q u] a]|] H1 H2; eexists; (split; [reflexivity|]); [apply (H1 q u a); auto|apply H2; auto]. }
    assert (Eu : us <> []) by (rewrite Ed; discriminate). destruct us as [|d us'] eqn:Eus; [congruence|]. rewrite <- Eus in *. destruct dir as [d1|].
    - apply G.
      + intros q u a E. apply fargmax_in in E. rewrite map_map in E. cbn [fst] in E. rewrite map_snd_combine_seq in E. apply fcandidates_in in E. apply Di in E as (Iq & Nq). auto.
      + discriminate.
    - apply G.
      + intros q u a E. apply fargmax_in in E. rewrite map_map in E. cbn [fst] in E. rewrite map_snd_combine_seq in E. apply fcandidates_in in E. apply Di in E as (Iq & Nq). auto.
      + intros E. exfalso. apply fargmax_none, map_eq_nil in E. assert (X : fcandidates le None us = []).
        { rewrite <- (map_snd_combine_seq (fcandidates le None us) 0). rewrite E. reflexivity. }
        rewrite Eus in X. unfold fcandidates in X. cbn [length seq combine map filter snd] in X. assert (T : flt fzero fone = true) by (vm_compute; reflexivity). rewrite T in X. discriminate. Qed.
  Lemma faway_ok node nbr : has_edge g node nbr -> exists d, faway le per boxes node nbr = Ok d.
  Proof. intros E. unfold faway. destruct (fdelta_ok node nbr E) as (v & -> & C & _). cbn [bind]. rewrite C. eauto. Qed.
  Lemma double_ballistic_ok : any_order (le_order le) -> exists r, fevaluate_line_ballistic le per boxes fs g = Ok r /\ wf_graph r /\ part_of r g /\ dominates g (g_nodes r) /\
    forall u v, has_edge r u v -> fstep u v \/ fstep v u.
  Proof. intros Ord. destruct (ballistic_with_ok (le_order le) g (fget_next_pos le per boxes fs g) (faway le per boxes) fstep Ord Wf) as (r & E & W & I & Ed & D).
    - intros x Ix. destruct (Sp x Ix) as (y & Ey & _). eauto.
    - apply fnext_ok.
    - apply faway_ok.
    - exists r. split; auto. split; auto. split; [split; auto; intros u v X; apply Ed; auto|]. split; auto. intros u v X. apply Ed; auto. Qed.
End Ball.
