(** C44-C46: the dimension of a cluster. *)
From Verif Require Import Base BaseFacts CoordSys SpecGeom CoordSysFacts GeomCombined CoordSysR Graph SpecGraph GraphFacts SpecCluster Dimension SpecDim DimensionFacts DrawFacts VolumeFacts LocalDim.
From Coq Require Import Reals Psatz.
From Coq Require Import Lra.
Open Scope list_scope.

(** the local dimension of a position, as [calculate_dimension] determines it *)
Notation local_dim rs cs g fs max_dim me := (fun p => get_dimension (rs p) cs g fs p max_dim me).

Lemma votes_perm local d ps qs : Permutation ps qs -> votes local d ps = votes local d qs.
Proof. intros P. unfold votes. apply Permutation_length. induction P; cbn; auto; repeat destruct (match local _ with Ok _ => _ | Err _ => _ end); auto. apply perm_swap. eapply Permutation_trans; eauto. Qed.

(** A dimension is reported after evaluating at least [m] positions (or all), only if
    two thirds of the evaluated positions have it; then no other dimension has two
    thirds. *)
Theorem C44_majority : forall W order rs cs (g : graph point W) fs max_dim m me d, any_order order ->
  calculate_dimension order rs cs g fs max_dim (Some m) me = Ok (Some d) ->
  let local := local_dim rs cs g fs max_dim me in
  exists evaluated rest, Permutation (evaluated ++ rest) (g_nodes g) /\ evaluated <> [] /\ Forall (fun p => exists k, local p = Ok k) evaluated /\
    (Nat.min m (length (g_nodes g)) <= length evaluated)%nat /\ two_thirds local d evaluated /\
    forall k, two_thirds local k evaluated -> k = d.
Proof. intros W order rs cs g fs md m me d O H local. unfold calculate_dimension in H. fold local in H.
  apply (count_loop local m _ [] [] [] (Some d)) in H as (es & rest & E & F & Ne & L & T); [|reflexivity|apply counts_nil]. cbn in E.
  exists es, rest. split; [rewrite <- E; apply O|]. split; auto. split; auto. split; [cbn in L; rewrite (Permutation_length (O _)) in L; auto|]. split; auto.
  intros k Hk. eapply two_thirds_unique; eauto. Qed.
Print Assumptions C44_majority.
(** "Inconclusive" is reported only after evaluating all positions, if no dimension has
    two thirds of them. *)
Theorem C44_inconclusive : forall W order rs cs (g : graph point W) fs max_dim m me, any_order order ->
  calculate_dimension order rs cs g fs max_dim (Some m) me = Ok None ->
  let local := local_dim rs cs g fs max_dim me in
  Forall (fun p => exists k, local p = Ok k) (g_nodes g) /\ forall d, ~ two_thirds local d (g_nodes g).
Proof. intros W order rs cs g fs md m me O H local. unfold calculate_dimension in H. fold local in H.
  apply (count_loop local m _ [] [] [] None) in H as (es & rest & E & F & Ne & -> & T); [|reflexivity|apply counts_nil]. cbn in E. rewrite app_nil_r in E. subst es. split.
  - eapply Permutation_Forall; [apply O|auto].
  - intros d X. apply (T d). unfold two_thirds in *. rewrite (votes_perm local d _ _ (O (g_nodes g))), (Permutation_length (O _)). auto. Qed.
Print Assumptions C44_inconclusive.
(** The dimension is at most [max_dim], the dimension of the space and 3. *)
Theorem C44_range : forall W order rs cs (g : graph point W) fs max_dim m me d, any_order order -> Forall (is_pos cs) (g_nodes g) ->
  calculate_dimension order rs cs g fs max_dim (Some m) me = Ok (Some d) -> (d <= max_dim)%nat /\ (d <= dim cs)%nat /\ (d <= 3)%nat.
Proof. intros W order rs cs g fs md m me d O P H. destruct (C44_majority _ _ _ _ _ _ _ _ _ _ O H) as (es & rest & Pm & Ne & F & _ & T & _).
  unfold two_thirds in T. assert (V : (0 < votes (local_dim rs cs g fs md me) d es)%nat) by (destruct es; [congruence|cbn [length] in T; lia]).
  unfold votes in V. destruct (filter _ es) as [|p l] eqn:Fl; [cbn in V; lia|]. assert (I : In p (p :: l)) by (left; auto). rewrite <- Fl in I. apply filter_In in I as (I & E).
  destruct (get_dimension (rs p) cs g fs p md me) as [d'|] eqn:G; [|discriminate]. apply Nat.eqb_eq in E. subst d'. apply get_dimension_range in G. rewrite Forall_forall in P.
  assert (Ip : In p (g_nodes g)) by (apply (Permutation_in _ Pm), in_app_iff; auto). apply P in Ip. unfold is_pos in Ip. unfold dim. lia. Qed.
Print Assumptions C44_range.

(** the random generator behaves and does not repeat rejected samples for ever *)
Definition good_env {W} (cs : coordsys) (g : graph point W) (rs : point -> nat -> rng) (me : option nat) : Prop :=
  forall p k, good_rng (rs p k) (neighbors g p) k /\ enough_draws g (rs p k) p k me.
(** no exceptions for a cluster and sensible parameters *)
Theorem C44_no_exception : forall W order rs cs (g : graph point W) fs max_dim m me, any_order order -> wf_box cs -> wf_graph g -> Forall (is_pos cs) (g_nodes g) -> g_nodes g <> [] ->
  (0 < m)%nat -> (max_dim <= 3)%nat -> good_env cs g rs me ->
  exists r, calculate_dimension order rs cs g fs max_dim (Some m) me = Ok r.
Proof. intros W order rs cs g fs md m me O B Wf P Ne Hm Hd En. unfold calculate_dimension. set (local := fun p => get_dimension (rs p) cs g fs p md me).
  pose proof (count_loop_ok local m Hm (order (g_nodes g)) [] [] [] eq_refl counts_nil) as K. cbn [length app] in K.
  destruct (count_dimensions local (Some m) 0 [] (order (g_nodes g))) as [r|x]; [eauto|]. exfalso. destruct K as (p & Ip & E).
  - intros X. apply Ne. apply Permutation_nil. rewrite <- X. apply O.
  - apply (Permutation_in _ (O _)) in Ip. assert (Pp : is_pos cs p) by (rewrite Forall_forall in P; auto).
    destruct (get_dimension_ok cs g fs Wf B P (rs p) p md me Pp Hd) as (d & Ed); [intros k; apply En|intros k; apply En|]. unfold local in E. congruence. Qed.
Print Assumptions C44_no_exception.

(** findings: the documented default [None] for [min_pos_evaluations] and the value 0 do
    not work, nor does an empty graph *)
Theorem C44_none_evaluations_refuted : forall W order rs cs (g : graph point W) fs max_dim me, g_nodes g <> [] -> calculate_dimension order rs cs g fs max_dim None me = Err TypeError.
Proof. intros W order rs cs g fs md me N. unfold calculate_dimension. destruct (g_nodes g); [congruence|reflexivity]. Qed.
Print Assumptions C44_none_evaluations_refuted.
Theorem C44_zero_evaluations_refuted : forall W order rs cs (g : graph point W) fs max_dim me, any_order order -> calculate_dimension order rs cs g fs max_dim (Some 0%nat) me = Err IndexError.
Proof. intros W order rs cs g fs md me O. unfold calculate_dimension. destruct (order (g_nodes g)); reflexivity. Qed.
Print Assumptions C44_zero_evaluations_refuted.

(** ** C45 *)
(** The tuples whose volume is calculated are distinct combinations of neighbours. *)
Theorem C45_distinct : forall W r cs (g : graph point W) fs pos dim me b used, wf_graph g -> good_rng r (neighbors g pos) dim ->
  has_dimension r cs g fs pos dim me = Ok (b, used) -> NoDup used /\ Forall (combination (neighbors g pos) dim) used.
Proof. intros W r cs g fs pos dim me b used Wf Gr H. apply has_dimension_spec in H as [(_ & _ & ->)|(_ & e & ts & ends & rest & vols & _ & D & -> & _)]; [split; constructor|].
  destruct (draw_spec (neighbors g pos) dim (nodup_neighbors Wf pos) r _ _ ends Gr D) as (N & F & _). apply Forall_app in F. split; [|tauto].
  clear - N. induction used as [|t used IH]; cbn in N; constructor; inversion_clear N; auto. intros X. apply H, in_app_iff. auto. Qed.
Print Assumptions C45_distinct.
(** Either all combinations are used, each once (their number is the binomial
    coefficient), and the average of their volumes is compared with the limit, or the
    decision was reached early: after at least [min_neighbour_evaluations] and two
    tuples, with a deviation from the limit of more than twice the standard error. *)
Theorem C45_all_or_decided : forall W r cs (g : graph point W) fs pos dim me b used, wf_graph g -> good_rng r (neighbors g pos) dim -> (dim <= length pos)%nat ->
  has_dimension r cs g fs pos dim me = Ok (b, used) ->
  exists e vols, exact_value dim = Some e /\ Forall2 (fun t v => get_volume cs pos t = Ok v) used vols /\ b = avg_gt vols (fs ^ dim * e / 2) /\
    (((forall t, combination (neighbors g pos) dim t -> In t used) /\ length used = binom (length (neighbors g pos)) dim) \/
     ((match me with None => length (neighbors g pos) | Some m => m end <= length used)%nat /\ (1 < length used)%nat /\
      (sqrt (var vols / INR (length used - 1)) < Rabs (fs ^ dim * e / 2 - avg vols) / 2)%R)).
Proof. intros W r cs g fs pos dim me b used Wf Gr L H. pose proof (C45_distinct _ _ _ _ _ _ _ _ _ _ Wf Gr H) as (Nu & Fu). apply has_dimension_spec in H as [(X & _)|(_ & e & ts & ends & rest & vols & E & D & Et & F & Eb & X)]; [lia|].
  exists e, vols. split; auto. split; auto. split; auto. destruct X as [(-> & ->)|X]; [left|right; auto]. rewrite app_nil_r in Et. subst ts.
  destruct (draw_spec (neighbors g pos) dim (nodup_neighbors Wf pos) r _ _ true Gr D) as (_ & _ & All). specialize (All eq_refl). split; auto.
  rewrite <- combinations_length, <- (map_length sort_tuple (combinations dim (neighbors g pos))). apply Nat.le_antisymm.
  - apply NoDup_incl_length; auto. intros t I. rewrite Forall_forall in Fu. apply (combos_spec _ _ (nodup_neighbors Wf pos)). auto.
  - apply NoDup_incl_length; [apply combos_nodup, nodup_neighbors; auto|]. intros t I. apply All. apply (combos_spec _ _ (nodup_neighbors Wf pos)). auto. Qed.
Print Assumptions C45_all_or_decided.
(** Random sampling cannot get stuck: while it goes on, some sample is not a repetition. *)
Theorem C45_sampling_progress : forall l dim used, NoDup l -> (2 * length used < binom (length l) dim)%nat -> exists d, sample_of l dim d /\ ~ In (sort_tuple d) used.
Proof. intros l k used N L. destruct (draw_random_progress l k N used) as (d & S & M); [rewrite combinations_length; auto|]. exists d. split; auto. apply mem_false. auto. Qed.
Print Assumptions C45_sampling_progress.

Lemma draws_exist l k num : NoDup l -> (num <= binom (length l) k)%nat -> forall n used, (num - 2 * length used <= n)%nat -> exists ds, Forall (sample_of l k) ds /\ snd (draw_random num used ds) = true.
Proof. intros Nl Hn. induction n as [|n IH]; intros used L.
  - exists []. split; [constructor|]. cbn [draw_random]. rewrite (proj2 (Nat.leb_le _ _)) by lia. reflexivity.
  - destruct (Nat.leb_spec num (2 * length used)) as [X|X]; [exists []; split; [constructor|]; cbn [draw_random]; rewrite (proj2 (Nat.leb_le _ _) X); reflexivity|].
    destruct (C45_sampling_progress l k used Nl) as (d & S & M); [lia|].
    assert (E : set_add (sort_tuple d) used = used ++ [sort_tuple d]) by (unfold set_add; rewrite (proj2 (mem_false _ _) M); auto).
    destruct (IH (used ++ [sort_tuple d])) as (ds & F & Sn); [rewrite app_length; cbn [length]; lia|]. exists (d :: ds). split; auto. cbn [draw_random].
    rewrite (proj2 (Nat.leb_gt _ _) X), (proj2 (mem_false _ _) M), E. destruct (draw_random num (used ++ [sort_tuple d]) ds); auto. Qed.
(** hypotheses met: every graph has a well-behaved generator with enough draws *)
Theorem C45_hypotheses_met : forall W (g : graph point W) me, wf_graph g -> forall pos dim, exists r, good_rng r (neighbors g pos) dim /\ enough_draws g r pos dim me.
Proof. intros W g me Wf pos k. set (m := match me with None => length (neighbors g pos) | Some m => m end).
  destruct (draws_exist (neighbors g pos) k (binom (length (neighbors g pos)) k) (nodup_neighbors Wf pos) (Nat.le_refl _) _ [] (Nat.le_refl _)) as (ds & F & S).
  exists (mk_rng ds (fun s => s)). split; [constructor; [exact F|auto]|]. unfold enough_draws, draw_neighbour_tuple. cbn [draws shuffle].
  destruct (10 * m <? binom (length (neighbors g pos)) k)%nat eqn:E; fold m; rewrite E; [|reflexivity].
  destruct (draw_random (binom (length (neighbors g pos)) k) [] ds) as [ys lf]. cbn in S. subst lf. reflexivity. Qed.
Print Assumptions C45_hypotheses_met.

(** ** C46 *)
Lemma reported W order rs cs (g : graph point W) fs md m me d : any_order order -> calculate_dimension order rs cs g fs md (Some m) me = Ok (Some d) ->
  exists p, In p (g_nodes g) /\ get_dimension (rs p) cs g fs p md me = Ok d.
Proof. intros O H. destruct (C44_majority _ _ _ _ _ _ _ _ _ _ O H) as (es & rest & Pm & Ne & F & _ & T & _).
  unfold two_thirds in T. assert (V : (0 < votes (local_dim rs cs g fs md me) d es)%nat) by (destruct es; [congruence|cbn [length] in T; lia]).
  unfold votes in V. destruct (filter _ es) as [|p l] eqn:Fl; [cbn in V; lia|]. assert (I : In p (p :: l)) by (left; auto). rewrite <- Fl in I. apply filter_In in I as (I & E).
  destruct (get_dimension (rs p) cs g fs p md me) as [d'|] eqn:G; [|discriminate]. apply Nat.eqb_eq in E. subst d'. exists p. split; auto. apply (Permutation_in _ Pm), in_app_iff; auto. Qed.

(** All connecting vectors parallel: at most a line. *)
Theorem C46_line : forall W order rs cs (g : graph point W) fs max_dim m me u d, any_order order -> wf_graph g -> (0 <= fs)%R -> (forall p k, good_rng (rs p k) (neighbors g p) k) ->
  all_connections cs g (multiple_of u) -> calculate_dimension order rs cs g fs max_dim (Some m) me = Ok (Some d) -> (d <= 1)%nat.
Proof. intros W order rs cs g fs md m me u d O Wf Fs Gr A H. destruct (reported _ _ _ _ _ _ _ _ _ _ O H) as (p & _ & G). unfold get_dimension in G.
  apply get_dimension_from_spec in G as (_ & I2 & _); [|lia]. destruct (Nat.le_gt_cases d 1) as [|X]; auto. destruct (I2 2%nat) as (used & E); [lia|].
  apply (line_not_2 cs g fs Wf Fs u) in E; auto. discriminate. Qed.
Print Assumptions C46_line.
(** All connecting vectors in one plane: at most a surface. *)
Theorem C46_plane : forall W order rs cs (g : graph point W) fs max_dim m me u1 u2 d, any_order order -> wf_graph g -> (0 <= fs)%R -> (forall p k, good_rng (rs p k) (neighbors g p) k) ->
  length u1 = length u2 -> all_connections cs g (in_plane u1 u2) -> calculate_dimension order rs cs g fs max_dim (Some m) me = Ok (Some d) -> (d <= 2)%nat.
Proof. intros W order rs cs g fs md m me u1 u2 d O Wf Fs Gr L A H. destruct (reported _ _ _ _ _ _ _ _ _ _ O H) as (p & _ & G). unfold get_dimension in G.
  apply get_dimension_from_spec in G as (_ & I2 & _); [|lia]. destruct (Nat.le_gt_cases d 2) as [|X]; auto. destruct (I2 3%nat) as (used & E); [lia|].
  apply (plane_not_3 cs g fs Wf Fs u1 u2) in E; auto. discriminate. Qed.
Print Assumptions C46_plane.
(** All connecting vectors zero (images of one point, or a single point): a point. *)
Theorem C46_point : forall W order rs cs (g : graph point W) fs max_dim m me d, any_order order -> wf_graph g -> (0 <= fs)%R -> (forall p k, good_rng (rs p k) (neighbors g p) k) ->
  all_connections cs g (Forall (fun x => x = 0%Qc)) -> calculate_dimension order rs cs g fs max_dim (Some m) me = Ok (Some d) -> d = 0%nat.
Proof. intros W order rs cs g fs md m me d O Wf Fs Gr A H. destruct (reported _ _ _ _ _ _ _ _ _ _ O H) as (p & _ & G). unfold get_dimension in G.
  apply get_dimension_from_spec in G as (_ & I2 & _); [|lia]. destruct (Nat.eq_dec d 0) as [|X]; auto. destruct (I2 1%nat) as (used & E); [lia|].
  apply (zero_not_1 cs g fs Wf Fs) in E; auto. discriminate. Qed.
Print Assumptions C46_point.

(** A straight line in a box without periodicity. *)
Theorem C46_straight_line : forall W order rs cs (g : graph point W) fs max_dim m me o u d, any_order order -> wf_graph g -> (0 <= fs)%R -> (forall p k, good_rng (rs p k) (neighbors g p) k) ->
  periodic cs = false -> length o = length u -> (forall p, In p (g_nodes g) -> exists a : Qc, p = vadd o (map (Qcmult a) u)) ->
  calculate_dimension order rs cs g fs max_dim (Some m) me = Ok (Some d) -> (d <= 1)%nat.
Proof. intros W order rs cs g fs md m me o u d O Wf Fs Gr Np L A H. eapply (C46_line _ _ _ _ _ _ _ _ _ u); eauto. intros p q v E C. destruct (wf_ends Wf E) as (Ip & Iq).
  destruct (A p Ip) as (a & ->). destruct (A q Iq) as (b & ->). unfold connecting_vector in C. rewrite Np in C. cbn in C. injection C as <-. exists (b - a)%Qc. clear - L.
  unfold vsub, vadd. revert u L. induction o as [|x o IH]; intros [|y u] L; cbn in *; try discriminate; auto. rewrite IH by lia. f_equal. ring. Qed.
Print Assumptions C46_straight_line.

Lemma pymod_0 s : pymod 0 s = 0%Qc.
Proof. unfold pymod. replace (0 / s)%Qc with 0%Qc; [change (qfloor 0) with 0%Z; change (qc 0) with 0%Qc; ring|]. unfold Qcdiv. ring. Qed.
Lemma conn1_same l x : (fst l < snd l)%Qc -> conn1 l (x, x) = 0%Qc.
Proof. intros H. unfold conn1. replace (x - x)%Qc with 0%Qc by ring. rewrite pymod_0. destruct (ltb (- (0 - size1 l)) 0) eqn:E; auto. apply ltb_spec in E. exfalso. unfold size1 in E.
  replace (- (0 - (snd l - fst l)))%Qc with (snd l - fst l)%Qc in E by ring. assert (X : (snd l < fst l)%Qc). { apply Qclt_minus_iff. apply Qclt_minus_iff in E. replace (fst l + - snd l)%Qc with (0 + - (snd l - fst l))%Qc by ring. auto. }
  apply (Qclt_not_le _ _ X). apply Qclt_le_weak. auto. Qed.
(** the direction of the [i]-th axis *)
Definition axis (n i : nat) : point := repeat 0%Qc i ++ 1%Qc :: repeat 0%Qc (n - S i).
Lemma axis_multiple v n i : length v = n -> (i < n)%nat -> (forall j, j <> i -> nth j v 0%Qc = 0%Qc) -> multiple_of (axis n i) v.
Proof. intros L Hi Z. exists (nth i v 0%Qc). assert (La : length (axis n i) = n) by (unfold axis; rewrite app_length; cbn; rewrite !repeat_length; lia).
  apply nth_ext with (d := 0%Qc) (d' := (nth i v 0 * 0)%Qc); [rewrite map_length; congruence|]. intros j Hj. rewrite map_nth. destruct (Nat.eq_dec j i) as [->|N].
  - unfold axis. rewrite app_nth2 by (rewrite repeat_length; lia). rewrite repeat_length, Nat.sub_diag. cbn. ring.
  - rewrite Z by auto. assert (E : nth j (axis n i) 0%Qc = 0%Qc); [|rewrite E; ring]. unfold axis. destruct (Nat.lt_ge_cases j i) as [X|X].
    + rewrite app_nth1 by (rewrite repeat_length; lia). apply nth_repeat.
    + rewrite app_nth2 by (rewrite repeat_length; lia). rewrite repeat_length. destruct (j - i)%nat eqn:D; [lia|]. cbn. apply nth_repeat. Qed.
(** A line parallel to an axis, in a periodic box: also if it wraps around. *)
Theorem C46_axis_parallel_line : forall W order rs cs (g : graph point W) fs max_dim m me i d, any_order order -> wf_graph g -> (0 <= fs)%R -> (forall p k, good_rng (rs p k) (neighbors g p) k) ->
  wf_box cs -> Forall (is_pos cs) (g_nodes g) -> (i < dim cs)%nat ->
  (forall p q j, In p (g_nodes g) -> In q (g_nodes g) -> j <> i -> nth j p 0%Qc = nth j q 0%Qc) ->
  calculate_dimension order rs cs g fs max_dim (Some m) me = Ok (Some d) -> (d <= 1)%nat.
Proof. intros W order rs cs g fs md m me i d O Wf Fs Gr B P Hi A H. eapply (C46_line _ _ _ _ _ _ _ _ _ (axis (dim cs) i)); eauto. intros p q v E C. destruct (wf_ends Wf E) as (Ip & Iq).
  assert (Pp : is_pos cs p) by (rewrite Forall_forall in P; auto). assert (Pq : is_pos cs q) by (rewrite Forall_forall in P; auto).
  apply axis_multiple; auto.
  - destruct (connecting_vector_spec cs p q B Pp Pq) as (v' & E' & L & _). rewrite C in E'. injection E' as <-. exact L.
  - intros j Nj. specialize (A p q j Ip Iq Nj). unfold connecting_vector in C. destruct (periodic cs); cbn [negb] in C.
    + destruct (dist_lt cs _ q assert_tol); [|discriminate]. injection C as <-. unfold is_pos, wf_box in *. clear - A B Pp Pq. generalize dependent q. revert p j Pp. induction (limits cs) as [|l ls IH]; intros p j Pp q A Pq; [cbn; destruct j; auto|].
      destruct p as [|x p], q as [|y q]; try discriminate. inversion_clear B. destruct j as [|j]; cbn in *; [subst y; apply conn1_same; auto|]. apply IH; auto.
    + injection C as <-. unfold vsub, is_pos in *. clear - A Pp Pq. assert (L : length p = length q) by congruence. clear Pp Pq. revert j q A L. induction p as [|x p IH]; intros j [|y q] A L; try discriminate; [destruct j; auto|].
      destruct j as [|j]; cbn in *; [subst; ring|]. apply IH; auto. Qed.
Print Assumptions C46_axis_parallel_line.

Lemma filter_all {A} (f : A -> bool) l : (forall x, In x l -> f x = true) -> filter f l = l.
Proof. induction l as [|a l IH]; cbn; auto. intros H. rewrite H by auto. rewrite IH; auto. Qed.
(** A line whose neighbouring positions are all more than a quarter of the feature size
    apart is recognised as a line. *)
Theorem C46_spaced_line : forall W order rs cs (g : graph point W) fs max_dim m me u r, any_order order -> wf_box cs -> wf_graph g -> Forall (is_pos cs) (g_nodes g) -> (0 <= fs)%R ->
  (forall p k, good_rng (rs p k) (neighbors g p) k) -> (1 <= max_dim)%nat -> (1 <= dim cs)%nat ->
  all_connections cs g (multiple_of u) -> (forall p q, has_edge g p q -> (fs / 4 < distance cs p q)%R) -> (forall p, In p (g_nodes g) -> exists q, has_edge g p q) ->
  calculate_dimension order rs cs g fs max_dim (Some m) me = Ok r -> r = Some 1%nat.
Proof. intros W order rs cs g fs md m me u r O B Wf P Fs Gr Hmd Hdim A Far Nb H.
  assert (One : forall p d, In p (g_nodes g) -> get_dimension (rs p) cs g fs p md me = Ok d -> d = 1%nat).
  { intros p d Ip G. unfold get_dimension in G. apply get_dimension_from_spec in G as (I1 & I2 & I3); [|lia]. destruct d as [|[|d]]; auto; exfalso.
    - destruct I3 as (used & E); [lia|]. apply (far_1 cs g fs Wf B P) in E; [discriminate|auto| | |].
      + rewrite Forall_forall in P. apply P in Ip. unfold is_pos in Ip. unfold dim in Hdim. lia.
      + destruct (Nb p Ip) as (q & Eq). intros X. apply in_neighbors in Eq. rewrite X in Eq. destruct Eq.
      + intros q Eq. apply Far. auto.
    - destruct (I2 2%nat) as (used & E); [lia|]. apply (line_not_2 cs g fs Wf Fs u) in E; auto. discriminate. }
  destruct r as [d|].
  - destruct (reported _ _ _ _ _ _ _ _ _ _ O H) as (p & Ip & G). f_equal. eapply One; eauto.
  - exfalso. pose proof H as H'. apply C44_inconclusive in H as (F & N); auto. apply (N 1%nat). unfold two_thirds.
    assert (V : votes (local_dim rs cs g fs md me) 1 (g_nodes g) = length (g_nodes g)); [|rewrite V; lia]. unfold votes. f_equal. apply filter_all.
    intros p Ip. rewrite Forall_forall in F. destruct (F p Ip) as (k & E). rewrite E. apply Nat.eqb_eq. eapply One; eauto. Qed.
Print Assumptions C46_spaced_line.

(** hypotheses met: three points of a straight line in the plane *)
Definition c46_cs : coordsys := mk_cs [(0%Qc, qc 4); (0%Qc, qc 4)] false.
Definition c46_p (i : Z) : point := [qc i; qc i].
Definition c46_g : graph point R := mk_graph [c46_p 0; c46_p 1; c46_p 2] [(c46_p 0, c46_p 1, 0%R); (c46_p 1, c46_p 2, 0%R)].
Theorem C46_hypotheses_met : exists rs, good_env c46_cs c46_g rs (Some 10%nat) /\ wf_box c46_cs /\ wf_graph c46_g /\ Forall (is_pos c46_cs) (g_nodes c46_g) /\
  calculate_dimension (fun l => l) rs c46_cs c46_g (Qc2R (qc 2)) 3 (Some 5%nat) (Some 10%nat) = Ok (Some 1%nat).
Proof. assert (Wf : wf_graph c46_g).
  { constructor; cbn [g_nodes g_edges c46_g].
    - assert (X : dedup [c46_p 0; c46_p 1; c46_p 2] = [c46_p 0; c46_p 1; c46_p 2]) by (vm_compute; reflexivity). rewrite <- X. apply NoDup_dedup.
    - intros u v w [[= <- <- _]|[[= <- <- _]|[]]]; cbn; auto.
    - repeat constructor; vm_compute; reflexivity. }
  assert (B : wf_box c46_cs) by (repeat constructor). assert (P : Forall (is_pos c46_cs) (g_nodes c46_g)) by (repeat constructor).
  assert (Env : exists rs, good_env c46_cs c46_g rs (Some 10%nat)).
  { set (mk := fun (p : point) (k : nat) => mk_rng [] (fun s : list tuple => s)). exists mk. intros p k. split; [constructor; cbn; auto|]. unfold enough_draws, draw_neighbour_tuple.
    assert (L : (length (neighbors c46_g p) <= 2)%nat).
    { unfold neighbors, c46_g. cbn [g_edges flat_map]. rewrite !app_length. cbn [length]. assert (X : forall e : point * point * R, (length (other p e) <= 1)%nat) by (intros e; unfold other; repeat destruct (eqb _ _); cbn; lia).
      pose proof (X (c46_p 0, c46_p 1, 0%R)). pose proof (X (c46_p 1, c46_p 2, 0%R)). lia. }
    destruct (Nat.ltb_spec (10 * 10) (binom (length (neighbors c46_g p)) k)) as [X|X]; [|reflexivity]. exfalso.
    assert (Bn : (binom (length (neighbors c46_g p)) k <= 4)%nat); [|lia]. clear - L. destruct (length (neighbors c46_g p)) as [|[|[|]]]; try lia; destruct k as [|[|[|k]]]; cbn; try lia; destruct k; cbn; lia. }
  destruct Env as (rs & Env). exists rs. split; auto. split; auto. split; auto. split; auto.
  assert (O : any_order (fun l : list point => l)) by (intros l; auto).
  destruct (C44_no_exception R (fun l => l) rs c46_cs c46_g (Qc2R (qc 2)) 3 5 (Some 10%nat)) as (r & E); auto; [discriminate|lia|].
  rewrite E. f_equal. eapply (C46_spaced_line _ _ _ _ _ _ _ _ _ [1%Qc; 1%Qc]); [exact O|exact B|exact Wf|exact P| |intros p k; apply Env| | | | | |exact E]; try (cbn; lia).
  - rewrite <- Qc2R_0. apply Qc2R_le. vm_compute. discriminate.
  - intros p q v (w & [X|X]) C; destruct X as [[= <- <- _]|[[= <- <- _]|[]]]; injection C as <-; [exists 1%Qc|exists 1%Qc|exists (- (1))%Qc|exists (- (1))%Qc]; vm_compute; reflexivity.
  - intros p q E'. assert (D : dist_lt c46_cs p q (Q2Qc (1#2)) = false). { destruct E' as (w & [X|X]); destruct X as [[= <- <- _]|[[= <- <- _]|[]]]; vm_compute; reflexivity. }
    assert (D' : ~ (distance c46_cs p q < Qc2R (Q2Qc (1#2)))%R) by (rewrite <- dist_lt_iff; congruence).
    assert (D'' : dist_le c46_cs p q (Q2Qc (1#2)) = false). { destruct E' as (w & [X|X]); destruct X as [[= <- <- _]|[[= <- <- _]|[]]]; vm_compute; reflexivity. }
    assert (D3 : ~ (distance c46_cs p q <= Qc2R (Q2Qc (1#2)))%R) by (rewrite <- dist_le_iff; congruence).
    assert (E2 : (Qc2R (qc 2) / 4 = Qc2R (Q2Qc (1#2)))%R) by (unfold Qc2R, qc, Q2R; cbn; lra). rewrite E2. lra.
  - intros p I. cbn in I. destruct I as [<-|[<-|[<-|[]]]]; [exists (c46_p 1)|exists (c46_p 0)|exists (c46_p 1)]; exists 0%R; cbn; auto. Qed.
Print Assumptions C46_hypotheses_met.
