(** Clusters around isolated centres. *)
From Verif Require Import Base BaseFacts CoordSys SpecGeom CoordSysFacts AverageFacts GeomCombined CoordSysR Graph SpecGraph GraphFacts Cluster SpecCluster ClusterFacts PropCluster
  Dimension SpecDim VolumeFacts DrawFacts DimensionFacts LocalDim PropDim Shape Identify SpecIdentify IdentifyFacts SpecIsolated.
From Coq Require Import Reals Qreals Psatz.
From Coq Require Import Lra.
Open Scope list_scope.
Open Scope R_scope.

(** ** The mean of vectors of length at most [r] *)
Definition nrm (v : point) : R := sqrt (Qc2R (len_sq v)).
Lemma rdiff0 v : rdiff (repeat 0%Qc (length v)) v = map Qc2R v.
Proof. unfold rdiff. induction v as [|x v IH]; cbn; auto. rewrite IH, Qc2R_0. f_equal. lra. Qed.
Lemma nrm_rdot v : nrm v = sqrt (rdot (map Qc2R v) (map Qc2R v)).
Proof. unfold nrm, len_sq. rewrite euclid_rdiff, rdiff0. auto. Qed.
Lemma map_vadd u v : map Qc2R (vadd u v) = radd (map Qc2R u) (map Qc2R v).
Proof. unfold vadd. revert v. induction u as [|x u IH]; intros [|y v]; cbn; auto. rewrite IH, Qc2R_add. auto. Qed.
Lemma nrm_vadd u v : length u = length v -> nrm (vadd u v) <= nrm u + nrm v.
Proof. intros L. rewrite !nrm_rdot, map_vadd. apply minkowski. rewrite !map_length. auto. Qed.
Lemma nrm_zero n : nrm (repeat 0%Qc n) = 0.
Proof. rewrite nrm_rdot. replace (rdot _ _) with 0; [apply sqrt_0|]. induction n; cbn; auto. rewrite <- IHn, Qc2R_0. lra. Qed.
Lemma nrm_vsum n r ws : Forall (fun w => length w = n /\ nrm w <= r) ws -> nrm (vsum n ws) <= INR (length ws) * r.
Proof. intros F. assert (Fl : Forall (fun w => length w = n) ws) by (eapply Forall_impl; [|exact F]; cbn; tauto).
  induction F as [|w ws (Lw & Nw) F IH]; [cbn; rewrite nrm_zero; lra|]. inversion Fl; subst. cbn [vsum fold_right]. change (fold_right vadd (repeat 0%Qc (length w)) ws) with (vsum (length w) ws).
  eapply Rle_trans; [apply nrm_vadd; rewrite vsum_length; auto|]. specialize (IH ltac:(auto)). change (length (w :: ws)) with (S (length ws)). rewrite S_INR. lra. Qed.
Lemma Qc2R_qc z : Qc2R (qc z) = IZR z.
Proof. unfold Qc2R, qc. transitivity (Q2R (inject_Z z)); [apply Qeq_eqR; apply Qred_correct|]. unfold Q2R, inject_Z. cbn. field. Qed.
Lemma Qc2R_qabs x : Qc2R (qabs x) = Rabs (Qc2R x).
Proof. unfold qabs. destruct (ltb x 0) eqn:E.
  - apply ltb_spec, Qc2R_lt in E. rewrite Qc2R_0 in E. rewrite Rabs_left by auto. replace (- x)%Qc with (0 - x)%Qc by ring. rewrite Qc2R_sub, Qc2R_0. lra.
  - rewrite Rabs_right; auto. destruct (Rle_lt_dec 0 (Qc2R x)) as [L|L]; [lra|]. exfalso. rewrite <- Qc2R_0 in L. apply Qc2R_lt, ltb_spec in L. congruence. Qed.
Lemma nrm_mean n r ws : ws <> [] -> Forall (fun w => length w = n /\ nrm w <= r) ws -> nrm (mean n ws) <= r.
Proof. intros Ne F. pose proof (nrm_vsum n r ws F) as V. unfold mean. set (k := length ws) in *. assert (Hk : 0 < INR k) by (destruct ws; [congruence|]; apply lt_0_INR; unfold k; cbn; lia).
  assert (E : nrm (vsum n ws) = INR k * nrm (map (fun x => (x / qc (Z.of_nat k))%Qc) (vsum n ws))); [|rewrite E in V; apply Rmult_le_reg_l with (INR k); auto].
  generalize (vsum n ws) as v. intros v. rewrite !nrm_rdot. rewrite <- (sqrt_square (INR k)) at 1 by lra. rewrite <- sqrt_mult by (try apply rdot_nonneg; nra). f_equal.
  induction v as [|x v IH]; cbn; [lra|]. rewrite IH. assert (X : Qc2R x = INR k * Qc2R (x / qc (Z.of_nat k))%Qc); [|rewrite X at 1 2; ring].
  rewrite INR_IZR_INZ, <- Qc2R_qc, <- Qc2R_mul. f_equal. field. intros X. apply (f_equal Qc2R) in X. rewrite Qc2R_qc, Qc2R_0, <- INR_IZR_INZ in X. lra. Qed.
Lemma mean_shift n c ws : length c = n -> ws <> [] -> Forall (fun w => length w = n) ws -> mean n (map (vadd c) ws) = vadd c (mean n ws).
Proof. intros Lc Ne F. assert (F' : Forall (fun w => length w = n) (map (vadd c) ws)) by (apply Forall_forall; intros x Hx; apply in_map_iff in Hx as (w & <- & Hw); rewrite Forall_forall in F; pose proof (F w Hw); rewrite vadd_length; lia).
  apply nth_ext with 0%Qc 0%Qc; [rewrite vadd_length; rewrite !mean_length; auto|]. rewrite mean_length by auto. intros i Hi. rewrite mean_nth by auto.
  unfold vadd. rewrite (nth_map2 _ _ _ i 0%Qc 0%Qc 0%Qc) by (rewrite ?mean_length by auto; lia). rewrite mean_nth by auto. unfold mean_coord. rewrite map_map.
  rewrite <- (mean1_sub_const (fun w => nth i (map2 Qcplus c w) 0%Qc) (nth i c 0%Qc)) by auto. f_equal. f_equal. apply map_ext_in. intros w Hw. rewrite Forall_forall in F.
  rewrite (nth_map2 _ _ _ i 0%Qc 0%Qc 0%Qc) by (pose proof (F w Hw); lia). ring. Qed.
Lemma euclid_sym p q : length p = length q -> euclid p q = euclid q p.
Proof. intros L. unfold euclid. f_equal. f_equal. revert q L. induction p as [|x p IH]; intros [|y q] L; try discriminate; cbn; auto. rewrite (IH q) by (cbn in L; lia). ring. Qed.
Lemma euclid_vadd c w : length c = length w -> euclid c (vadd c w) = nrm w.
Proof. intros L. unfold euclid, nrm. f_equal. f_equal. rewrite <- len_sq_vsub by (rewrite vadd_length; lia). f_equal. unfold vsub, vadd. revert w L. induction c as [|x c IH]; intros [|y w] L; try discriminate; cbn; auto. rewrite IH by (cbn in L; lia). f_equal. ring. Qed.
Lemma coord_le_nrm w x : In x w -> Rabs (Qc2R x) <= nrm w.
Proof. intros I. rewrite nrm_rdot. rewrite <- sqrt_Rsqr_abs. apply sqrt_le_1_alt. unfold Rsqr. induction w as [|y w IH]; [destruct I|]. cbn. destruct I as [<-|I].
  - pose proof (rdot_nonneg (map Qc2R w)). lra.
  - specialize (IH I). pose proof (Rle_0_sqr (Qc2R y)) as X. unfold Rsqr in X. lra. Qed.

Section Geometry.
  Variables (cs : coordsys) (r : R) (c : point).
  Hypothesis B : wf_box cs.
  Hypothesis Pc : is_pos cs c.
  Hypothesis Big : periodic cs = true -> Forall (fun l => 4 * r < Qc2R (snd l) - Qc2R (fst l)) (limits cs).

  (** every position has an image near [c] *)
  Lemma image_near x : is_pos cs x -> distance cs x c <= r ->
    exists w, is_pos cs w /\ nrm w <= r /\ if periodic cs then lattice_eq cs x (vadd c w) else x = vadd c w.
  Proof. intros Px D. destruct (connecting_vector_spec cs c x B Pc Px) as (w & _ & Pw & Hw & Lw & _). exists w. split; auto. split.
    - unfold nrm. rewrite Lw. change (distance cs c x <= r). rewrite distance_sym; auto.
    - destruct (periodic cs); auto. Qed.
  Lemma images_near ps : Forall (fun x => is_pos cs x /\ distance cs x c <= r) ps ->
    exists ws, Forall (fun w => is_pos cs w /\ nrm w <= r) ws /\ if periodic cs then Forall2 (lattice_eq cs) ps (map (vadd c) ws) else ps = map (vadd c) ws.
  Proof. induction 1 as [|x ps (Px & Dx) F IH]; [exists []; split; auto; destruct (periodic cs); constructor|]. destruct IH as (ws & Fw & E). destruct (image_near x Px Dx) as (w & Pw & Nw & Ew).
    exists (w :: ws). split; [constructor; auto|]. destruct (periodic cs); cbn; [constructor; auto|congruence]. Qed.

  Theorem average_near ps : ps <> [] -> Forall (fun x => is_pos cs x /\ distance cs x c <= r) ps ->
    exists a, average cs ps = Ok a /\ is_pos cs a /\ distance cs a c <= r.
  Proof. intros Ne F. destruct (images_near ps F) as (ws & Fw & E).
    assert (Nw : ws <> []) by (intros ->; destruct (periodic cs); [inversion E; subst; auto|subst; auto]).
    assert (Fl : Forall (fun w => length w = dim cs) ws) by (eapply Forall_impl; [|exact Fw]; cbn; unfold is_pos, dim; tauto).
    assert (Fn : Forall (fun w => length w = dim cs /\ nrm w <= r) ws) by (eapply Forall_impl; [|exact Fw]; cbn; unfold is_pos, dim; tauto).
    assert (Lc : length c = dim cs) by exact Pc.
    set (m := mean (dim cs) (map (vadd c) ws)). assert (Em : m = vadd c (mean (dim cs) ws)) by (apply mean_shift; auto).
    assert (Pm : is_pos cs m). { unfold is_pos. rewrite Em, vadd_length; rewrite mean_length; auto. }
    assert (Dm : euclid m c <= r). { rewrite euclid_sym by (unfold is_pos in *; congruence). rewrite Em, euclid_vadd by (rewrite mean_length; auto). apply nrm_mean; auto. }
    destruct (periodic cs) eqn:Per.
    - assert (Pi : Forall (is_pos cs) (map (vadd c) ws)). { clear - E. induction E as [|x y l l' H E IH]; constructor; auto. apply (lattice_eq_is_pos _ _ _ H). }
      rewrite (average_per_lattice cs ps _ Per B E).
      destruct (average_tight cs (map (vadd c) ws) Per B Pi) as (a & Ea & La).
      { destruct ws; cbn; congruence. }
      { intros p q Hp Hq. apply in_map_iff in Hp as (u & <- & Hu). apply in_map_iff in Hq as (v & <- & Hv). rewrite Forall_forall in Fw. destruct (Fw u Hu) as (Pu & Nu). destruct (Fw v Hv) as (Pv & Nv).
        unfold within_half. pose proof (fun x => coord_le_nrm u x) as Cu. pose proof (fun x => coord_le_nrm v x) as Cv. pose proof (Big eq_refl) as Bg. unfold is_pos in *. clear - Bg Pu Pv Pc Cu Cv Nu Nv.
        assert (Cu' : Forall (fun x => Rabs (Qc2R x) <= r) u) by (apply Forall_forall; intros x Hx; specialize (Cu x Hx); lra).
        assert (Cv' : Forall (fun x => Rabs (Qc2R x) <= r) v) by (apply Forall_forall; intros x Hx; specialize (Cv x Hx); lra). clear Cu Cv Nu Nv.
        unfold vsub, vadd. generalize Pc. generalize c as o. clear Pc. revert u v Pu Pv Cu' Cv'. induction Bg as [|l ls Hl F IH]; intros u v Pu Pv Cu Cv o Po; destruct o as [|x o], u as [|y u], v as [|z v]; try discriminate; cbn [map2]; constructor.
        - inversion Cu; inversion Cv; subst. apply Qc2R_lt. replace (x + z - (x + y))%Qc with (z - y)%Qc by ring.
          assert (G2 : Qc2R ((snd l - fst l) * half) = (Qc2R (snd l) - Qc2R (fst l)) / 2) by (rewrite Qc2R_mul, Qc2R_sub; unfold half, Qc2R at 3; cbn; unfold Q2R; cbn; field). rewrite G2.
          assert (G3 : Qc2R (qabs (z - y)) = Rabs (Qc2R z - Qc2R y)).
          { rewrite Qc2R_qabs, Qc2R_sub. auto. }
          rewrite G3. assert (K : forall t, Rabs t <= r -> - r <= t <= r) by (intros t; unfold Rabs; destruct Rcase_abs; lra). apply Forall_inv in Cu, Cv. apply K in Cu, Cv. apply Rabs_def1; lra.
        - inversion Cu; inversion Cv; subst. apply IH; auto. }
      exists a. split; auto. pose proof (lattice_eq_is_pos _ _ _ La) as (_ & Pa). split; auto.
      rewrite (distance_lattice cs a m c c Per B) by (try apply lattice_eq_refl; auto; apply lattice_eq_sym; auto).
      eapply Rle_trans; [apply (distance_le_euclid cs m m c); auto; apply lattice_eq_refl; auto|exact Dm].
    - subst ps. unfold average. rewrite Per. cbn [negb]. destruct (map (vadd c) ws) eqn:Q; [congruence|]. exists m. split; auto. split; auto.
      unfold distance. rewrite dist_sq_nonper by auto. exact Dm. Qed.
End Geometry.

(** ** Dimension *)
Section Local.
  Context {W : Type}.
  Variables (cs : coordsys) (g : graph point W) (fs : R).
  Hypothesis Wf : wf_graph g.
  Hypothesis B : wf_box cs.
  Hypothesis P : Forall (is_pos cs) (g_nodes g).
  Lemma near_not_1 r pos me b used : good_rng r (neighbors g pos) 1 -> (forall q, has_edge g q pos -> distance cs q pos <= fs / 4) ->
    has_dimension r cs g fs pos 1 me = Ok (b, used) -> b = false.
  Proof. intros Gr Nr H. apply has_dimension_spec in H as [(_ & -> & _)|(Lp & e & ts & ends & rest & vols & E & D & Ets & F & -> & End)]; auto. cbn in E. injection E as <-.
    apply avg_below. assert (T : forall t, In t used -> length t = 1%nat /\ forall x, In x t -> has_edge g x pos) by (intros t I; eapply tuple_neighbours; eauto; subst ts; apply in_app_iff; auto).
    clear D Gr End Ets. induction F as [|t v used' vols' Fv F IH]; constructor; [|apply IH; intros; apply T; right; auto].
    destruct (T t (or_introl eq_refl)) as (L1 & E1). destruct t as [|q [|]]; try discriminate. specialize (E1 q (or_introl eq_refl)). rewrite (volume_single cs g Wf B P pos q E1) in Fv by lia. injection Fv as <-.
    specialize (Nr q E1). lra. Qed.
  Lemma near_dimension order rs md m me d : any_order order -> (1 <= md)%nat -> (forall p k, good_rng (rs p k) (neighbors g p) k) -> (forall p q, has_edge g p q -> distance cs p q <= fs / 4) ->
    calculate_dimension order rs cs g fs md (Some m) me = Ok d -> d = Some 0%nat.
  Proof. intros O Hmd Gr Nr H.
    assert (Z : forall p d, In p (g_nodes g) -> get_dimension (rs p) cs g fs p md me = Ok d -> d = 0%nat).
    { intros p k Ip G. unfold get_dimension in G. apply get_dimension_from_spec in G as (_ & I2 & _); [|lia]. destruct k as [|k]; auto. exfalso.
      destruct (I2 1%nat) as (used & E); [lia|]. apply near_not_1 in E; auto. discriminate. }
    destruct d as [d|].
    - destruct (reported _ _ _ _ _ _ _ _ _ _ O H) as (p & Ip & G). f_equal. eapply Z; eauto.
    - exfalso. apply C44_inconclusive in H as (F & N); auto. apply (N 0%nat). unfold two_thirds.
      assert (V : votes (local_dim rs cs g fs md me) 0 (g_nodes g) = length (g_nodes g)); [|rewrite V; lia]. unfold votes. f_equal. apply filter_all.
      intros p Ip. rewrite Forall_forall in F. destruct (F p Ip) as (k & E). rewrite E. apply Nat.eqb_eq. eapply Z; eauto. Qed.
End Local.

Lemma choose_each {A C} (Q : A -> C -> Prop) l : (forall a, In a l -> exists c, Q a c) -> exists m, Forall2 (fun c a => Q a c) m l.
Proof. induction l as [|a l IH]; intros H; [exists []; constructor|]. destruct (H a (or_introl eq_refl)) as (c & Hc). destruct IH as (m & F); [intros; apply H; right; auto|]. exists (c :: m). constructor; auto. Qed.
Lemma F2_in_l {A C} (Q : A -> C -> Prop) l m a : Forall2 Q l m -> In a l -> exists b, In b m /\ Q a b.
Proof. induction 1 as [|x y l m H F IH]; [intros []|]. intros [<-|I]; [exists y; split; [left|]; auto|]. destruct (IH I) as (b & I' & Hb). exists b. split; [right|]; auto. Qed.
Lemma F2_in_r {A C} (Q : A -> C -> Prop) l m b : Forall2 Q l m -> In b m -> exists a, In a l /\ Q a b.
Proof. induction 1 as [|x y l m H F IH]; [intros []|]. intros [<-|I]; [exists x; split; [left|]; auto|]. destruct (IH I) as (a & I' & Ha). exists a. split; [right|]; auto. Qed.

(** ** Clusters *)
Section Isolated.
  Variables (env : environment) (cs : coordsys) (fs : Qc) (r : R) (centres positions : list point).
  Hypothesis GE : good_environment cs env.
  Hypothesis B : wf_box cs.
  Hypothesis Fp : (0 < fs)%Qc.
  Hypothesis P : Forall (is_pos cs) positions.
  Hypothesis Iso : isolated cs fs r centres positions.
  Notation clusters := (create_clusters (e_order env) (e_edges env) cs fs positions).

  Lemma centre_pos c : In c centres -> is_pos cs c.
  Proof. destruct Iso as (H & _). rewrite Forall_forall in H. auto. Qed.
  Lemma position_pos x : In x positions -> is_pos cs x.
  Proof. rewrite Forall_forall in P. auto. Qed.
  Lemma step_same x y c d : In c centres -> In d centres -> In x positions -> In y positions -> distance cs x c <= r -> distance cs y d <= r -> distance cs x y <= Qc2R fs -> c = d.
  Proof. intros Ic Id Ix Iy Dx Dy D. destruct (eq_dec c d) as [|N]; auto. exfalso. destruct Iso as (_ & _ & _ & Far & _). specialize (Far c d Ic Id N).
    pose proof (centre_pos c Ic). pose proof (centre_pos d Id). pose proof (position_pos x Ix). pose proof (position_pos y Iy).
    pose proof (distance_triangle cs c x d B ltac:(auto) ltac:(auto) ltac:(auto)) as T1. pose proof (distance_triangle cs x y d B ltac:(auto) ltac:(auto) ltac:(auto)) as T2. rewrite (distance_sym cs c x) in T1 by auto. lra. Qed.
  Lemma linked_same x y c : In c centres -> In x positions -> distance cs x c <= r -> linked (close cs fs positions) x y -> In y positions /\ distance cs y c <= r.
  Proof. intros Ic Ix Dx L. apply (linked_closed (R := close cs fs positions) (fun y => In y positions /\ distance cs y c <= r)) with x; auto.
    intros a b (Ia & Da) S. destruct S as (_ & Ib & _ & D). destruct Iso as (_ & _ & _ & _ & Cov). destruct (Cov b Ib) as (d & Id & Dd).
    assert (c = d) by (eapply (step_same a b); eauto). subst d. auto. Qed.
  Lemma cluster_centre c : In c clusters -> exists o, In o centres /\ forall x, In x (g_nodes c) <-> In x positions /\ distance cs x o <= r.
  Proof. intros I. pose proof (cluster_ne env cs fs positions GE B P c I) as Ne. destruct (g_nodes c) as [|x l] eqn:Q; [congruence|]. rewrite <- Q in *. assert (Ixc : In x (g_nodes c)) by (rewrite Q; left; auto). clear Q Ne l.
    assert (M : forall z, In z (g_nodes c) -> In z positions).
    { intros z Iz. apply (C41_partition _ _ cs fs positions (ge_order _ _ GE) (ge_edges _ _ GE) B P). apply in_concat. exists (g_nodes c). split; auto. apply in_map; auto. }
    assert (Ix : In x positions) by auto. destruct Iso as (_ & R8 & _ & _ & Cov). destruct (Cov x Ix) as (o & Io & Do). exists o. split; auto. intros y.
    assert (SM := cluster_same _ _ cs fs positions (ge_order _ _ GE) (ge_edges _ _ GE) B P c x y I Ixc). rewrite SM. split.
    - intros L. eapply linked_same; eauto.
    - intros (Iy & Dy). destruct (eq_dec x y) as [->|N]; [apply linked_refl|]. apply linked_one. split; auto. split; auto. split; auto.
      pose proof (centre_pos o Io). pose proof (position_pos x Ix). pose proof (position_pos y Iy).
      pose proof (distance_triangle cs x o y B ltac:(auto) ltac:(auto) ltac:(auto)) as T. rewrite (distance_sym cs o y) in T by auto. pose proof (distance_nonneg cs x o). lra. Qed.

  Lemma cluster_dim0 c : In c clusters -> cluster_dimension env cs fs c = Ok (Some 0%nat).
  Proof. intros I. destruct (cluster_centre c I) as (o & Io & M). destruct (dimension_total env cs fs positions GE B P c I) as (d & Ed). rewrite Ed. f_equal. destruct (cluster_edges env cs fs positions GE B P c I) as (W & _ & _).
    unfold cluster_dimension in Ed. eapply (near_dimension cs c (Qc2R fs) W B (cluster_pos env cs fs positions GE B P c I)); [apply (ge_shuffle _ _ GE)| | | |exact Ed]; [lia| |].
    - intros p k. apply (ge_rng _ _ GE c W p k).
    - intros p q Eq. destruct (wf_ends W Eq) as (Ip & Iq). apply M in Ip as (Ip & Dp). apply M in Iq as (Iq & Dq). destruct Iso as (_ & R8 & _).
      pose proof (centre_pos o Io). pose proof (position_pos p Ip). pose proof (position_pos q Iq).
      pose proof (distance_triangle cs p o q B ltac:(auto) ltac:(auto) ltac:(auto)) as T. rewrite (distance_sym cs o q) in T by auto. lra. Qed.
  Lemma cluster_point c m : In c clusters -> exists i o, identify_cluster env cs fs m c = Ok i /\ i_positions i = g_nodes c /\ In o centres /\ point_at cs r positions o i.
  Proof. intros I. destruct (cluster_centre c I) as (o & Io & M). unfold identify_cluster. rewrite (cluster_dim0 c I). cbn [bind evaluate_cluster]. unfold evaluate_point.
    assert (Ne : g_nodes c <> []) by (eapply cluster_ne; eauto).
    destruct (average_near cs r o B (centre_pos o Io)) with (ps := g_nodes c) as (a & Ea & Pa & Da); auto.
    - intros Per. destruct Iso as (_ & R8 & Bx & _). specialize (Bx Per). eapply Forall_impl; [|exact Bx]. cbn. intros l Hl. lra.
    - apply Forall_forall. intros x Hx. apply M in Hx as (Ix & Dx). split; auto. apply position_pos; auto.
    - rewrite Ea. cbn [bind]. eexists. exists o. split; [reflexivity|]. split; auto. split; auto. split; auto. split; [exists a; auto|exact M]. Qed.
  Theorem isolated_points m : exists out found, run_from_positions env cs fs m positions = Ok out /\ ic_cs out = cs /\ ic_feature_size out = fs /\ Forall2 (point_at cs r positions) found (ic_results out) /\
    NoDup found /\ forall c, In c found <-> In c centres /\ exists x, In x positions /\ distance cs x c <= r.
  Proof. destruct (sequence_total (identify_cluster env cs fs m) clusters) as (rs & E).
    { intros c I. destruct (cluster_point c m I) as (i & o & X & _). eauto. }
    unfold run_from_positions. rewrite E. cbn [bind]. apply sequence_spec in E. pose proof (results_account env cs fs positions GE B P m rs E) as (Nd & Mem & Ne & _).
    destruct (choose_each (fun i o => In o centres /\ point_at cs r positions o i) rs) as (found & F).
    { intros i Hi. destruct (in_results env cs fs positions m rs i E Hi) as (c & Ic & Ec). destruct (cluster_point c m Ic) as (i' & o & X & _ & Y). rewrite Ec in X. injection X as <-. eauto. }
    eexists. exists found. split; [reflexivity|]. cbn. split; auto. split; auto. split; [eapply Forall2_impl; [|exact F]; cbn; tauto|]. split.
    - clear E Mem. revert Nd Ne. induction F as [|o i found rs (Io & _ & _ & Hi) F IH]; intros Nd Ne; constructor.
      + intros I. destruct (F2_in_l _ _ _ _ F I) as (j & Ij & _ & _ & _ & Hj). assert (Nei : i_positions i <> []) by (apply Ne; left; auto). destruct (i_positions i) as [|x l] eqn:Q; [congruence|].
        assert (Hx : In x (i_positions j)) by (apply Hj, Hi; left; auto). cbn in Nd. rewrite Q in Nd. inversion Nd as [|? ? N _]; subst. apply N. apply in_app_iff. right. apply in_concat. exists (i_positions j). split; auto. apply in_map; auto.
      + apply IH; [cbn in Nd; clear - Nd; induction (i_positions i); cbn in Nd; auto; inversion Nd; auto|]. intros j Hj. apply Ne. right; auto.
    - intros c. split.
      + intros I. destruct (F2_in_l _ _ _ _ F I) as (i & Ii & Ic & _ & _ & Hi). split; auto. specialize (Ne i Ii). destruct (i_positions i) as [|x l] eqn:Q; [congruence|]. exists x. apply Hi. left; auto.
      + intros (Ic & x & Ix & Dx). apply Mem in Ix as Ix'. apply in_concat in Ix' as (l & Il & Ixl). apply in_map_iff in Il as (i & <- & Ii). destruct (F2_in_r _ _ _ _ F Ii) as (d & Id & Idc & _ & _ & Hi).
        pose proof (proj1 (Hi x) Ixl) as (_ & Dd). assert (c = d); [|subst; auto]. eapply (step_same x x); eauto. pose proof (position_pos x Ix). assert (Z : distance cs x x = 0) by (apply distance_zero; auto; destruct (periodic cs); auto using lattice_eq_refl). rewrite Z. apply Rlt_le. eapply fs_pos; eauto. Qed.
End Isolated.
