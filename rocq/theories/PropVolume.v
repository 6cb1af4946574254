(** C71: what the local dimension of a position means. *)
From Coq Require Import Reals Psatz.
From Verif Require Import Base BaseFacts CoordSys SpecGeom CoordSysFacts GeomCombined CoordSysR Graph SpecGraph GraphFacts Dimension SpecDim DimensionFacts DrawFacts VolumeFacts LocalDim SpecVolume VolumeMean VolumeSpanned PropDim.
From Coq Require Import Lra.
Open Scope list_scope.
Open Scope R_scope.

(** [vol] is the volume of the parallelepiped spanned by the vectors connecting the given
    neighbours with [pos] *)
Definition connected_volume (cs : coordsys) (pos : point) (t : list point) (vol : R) : Prop :=
  exists vs, Forall2 (fun q v => connecting_vector cs q pos = Ok v) t vs /\ spanned_volume vs vol.

Lemma tuple_volume W cs (g : graph point W) pos t vol : wf_box cs -> wf_graph g -> Forall (is_pos cs) (g_nodes g) -> (length t <= 3)%nat -> (length t <= length pos)%nat ->
  (forall x, In x t -> has_edge g x pos) -> get_volume cs pos t = Ok vol -> connected_volume cs pos t vol.
Proof. intros B Wf P L3 Lp E H. unfold get_volume in H. destruct (sequence (map (fun nbr => connecting_vector cs nbr pos) t)) as [vs|] eqn:S; [|discriminate]. cbn [bind] in H. injection H as <-.
  destruct (Nat.ltb_spec (length pos) (length t)) as [X|_]; [lia|].
  assert (F : Forall2 (fun q v => connecting_vector cs q pos = Ok v) t vs).
  { clear - S. revert vs S. induction t as [|x t IH]; cbn; intros vs S; [injection S as <-; constructor|]. destruct (connecting_vector cs x pos) as [v|] eqn:Ex; [|discriminate]. destruct (sequence _) as [vs'|]; [|discriminate]. cbn in S. injection S as <-. constructor; auto. }
  pose proof (sequence_forall t _ (fun v => length v = dim cs) vs S) as (Fl & Ll).
  { intros x v Ix Ev. destruct (edge_pos cs g Wf P _ _ (E x Ix)) as (Px & Pp). destruct (connecting_vector_spec cs x pos B Px Pp) as (v' & E' & Lv & _). rewrite Ev in E'. injection E' as <-. exact Lv. }
  exists vs. split; [exact F|]. destruct (spanned_exists (dim cs) vs Fl ltac:(lia)) as (vol & Sv). rewrite <- (spanned_gram (dim cs) vs vol Fl ltac:(lia) Sv). exact Sv. Qed.

(** *** The test for dimension [dim] (one of the steps below): it calculates the volumes of
    parallelepipeds spanned by different combinations of [dim] neighbours, and is passed iff there
    are any and their mean is more than half of the mean volume for vectors drawn uniformly
    from a ball with the feature size as radius.  Either all combinations are used, or at least
    [min_neighbour_evaluations] (and two), stopping as soon as the mean is more than two standard errors from
    the limit. *)
Definition passes {W} (cs : coordsys) (g : graph point W) (fs : R) (pos : point) (dim : nat) (me : option nat) (b : bool) : Prop :=
  exists used vols v, NoDup used /\ Forall (combination (neighbors g pos) dim) used /\ Forall2 (connected_volume cs pos) used vols /\ mean_volume dim fs v /\
    (b = true <-> vols <> [] /\ v / 2 < mean vols) /\
    ((forall t, combination (neighbors g pos) dim t -> In t used) \/
     ((match me with None => length (neighbors g pos) | Some m => m end <= length used)%nat /\ (1 < length used)%nat /\ 2 * standard_error vols < Rabs (v / 2 - mean vols))) /\
    (forall j, (match me with None => length (neighbors g pos) | Some m => m end <= j)%nat -> (1 < j < length used)%nat ->
       Rabs (v / 2 - mean (firstn j vols)) <= 2 * standard_error (firstn j vols)).
Lemma standard_error_eq vols : (1 < length vols)%nat -> sqrt (var vols / INR (length vols - 1)) = standard_error vols.
Proof. intros L. unfold standard_error, var. rewrite minus_INR by lia. cbn [INR]. f_equal. f_equal. unfold avg. rewrite map_length. f_equal. unfold rsum. f_equal. apply map_ext. intros x. unfold mean. ring. Qed.
Lemma has_dimension_passes W r cs (g : graph point W) fs pos dim me b used : wf_box cs -> wf_graph g -> Forall (is_pos cs) (g_nodes g) -> good_rng r (neighbors g pos) dim -> 0 < fs -> (1 <= dim)%nat -> (dim <= length pos)%nat ->
  has_dimension r cs g fs pos dim me = Ok (b, used) -> passes cs g fs pos dim me b.
Proof. intros B Wf P Gr Fs D1 L H. pose proof (C45_distinct _ _ _ _ _ _ _ _ _ _ Wf Gr H) as (Nu & Fu). pose proof H as H0.
  apply has_dimension_spec in H as [(X & _)|(_ & e & ts & ends & rest & vols & E & D & Et & F & Eb & X)]; [lia|].
  assert (L3 : (dim <= 3)%nat) by (destruct dim as [|[|[|[|]]]]; try lia; discriminate).
  exists used, vols, (fs ^ dim * e). split; [exact Nu|]. split; [exact Fu|]. split; [|split; [apply mean_volume_exact; auto|split; [|split]]].
  - assert (T : forall t, In t used -> length t = dim /\ forall x, In x t -> has_edge g x pos) by (intros t I; eapply tuple_neighbours; eauto; subst ts; apply in_app_iff; auto).
    clear - F T B Wf P L L3. induction F as [|t v used' vols' Fv F IH]; constructor; [|apply IH; intros; apply T; right; auto].
    destruct (T t (or_introl eq_refl)) as (Lt & Et). apply (tuple_volume W cs g pos t v); auto; lia.
  - rewrite Eb. unfold avg_gt, rgt. destruct vols as [|v vols]; [split; [discriminate|tauto]|]. change (avg (v :: vols)) with (mean (v :: vols)).
    destruct (Rlt_dec _ _) as [Y|Y]; split; auto; try discriminate; [split; [discriminate|auto]|]. intros (_ & Z). contradiction.
  - assert (Lv : length used = length vols) by (clear - F; induction F; cbn; auto). destruct X as [(-> & ->)|(X1 & X2 & X3)]; [left|right].
    + rewrite app_nil_r in Et. subst ts. destruct (draw_spec (neighbors g pos) dim (nodup_neighbors Wf pos) r _ _ true Gr D) as (_ & _ & All). exact (All eq_refl).
    + split; [exact X1|]. split; [exact X2|]. change (avg vols) with (mean vols) in X3. assert (Ev : sqrt (var vols / INR (length used - 1)) = standard_error vols); [|rewrite Ev in X3; lra].
      rewrite Lv in *. apply standard_error_eq. exact X2.
  - intros j Hm Hj. pose proof (has_dimension_go cs g fs r pos dim me b used e vols H0 E F j Hm Hj) as G. assert (Lv : length used = length vols) by (clear - F; induction F; cbn; auto). assert (Lf : length (firstn j vols) = j) by (apply firstn_length_le; lia).
    pose proof (standard_error_eq (firstn j vols) ltac:(rewrite Lf; lia)) as Es. rewrite Lf in Es. rewrite Es in G. change (avg (firstn j vols)) with (mean (firstn j vols)) in G. lra. Qed.
(** The local dimension of a position (see C44 for the dimension of the cluster): the tests for 1, ..., d are
    passed, and the one for d + 1 is not (unless d is the maximum or the dimension of the space). *)
Theorem C71_local_dimension : forall W rs cs (g : graph point W) fs pos max_dim me d, wf_box cs -> wf_graph g -> Forall (is_pos cs) (g_nodes g) ->
  (forall k, good_rng (rs k) (neighbors g pos) k) -> 0 < fs -> get_dimension rs cs g fs pos max_dim me = Ok d ->
  (d <= max_dim)%nat /\ (d <= length pos)%nat /\
  (forall k, (1 <= k <= d)%nat -> passes cs g fs pos k me true) /\
  ((d < max_dim)%nat -> (d < length pos)%nat -> passes cs g fs pos (S d) me false).
Proof. intros W rs cs g fs pos md me d B Wf P Gr Fs H. pose proof (get_dimension_range cs g fs rs pos md me d H) as (R1 & R2 & R3). split; [exact R1|]. split; [exact R2|].
  unfold get_dimension in H. apply get_dimension_from_spec in H as (I1 & I2 & I3); [|lia]. split.
  - intros k Hk. destruct (I2 k ltac:(lia)) as (used & E). eapply has_dimension_passes; eauto; lia.
  - intros L1 L2. destruct (I3 ltac:(lia)) as (used & E). eapply has_dimension_passes; eauto; lia. Qed.
Print Assumptions C71_local_dimension.

(** *** [mean_volume] and [spanned_volume] determine their values. *)
Theorem C71_well_defined : (forall k a v v', 0 < a -> mean_volume k a v -> mean_volume k a v' -> v = v') /\
  (forall n vs vol vol', Forall (fun v => length v = n) vs -> (length vs <= 3)%nat -> spanned_volume vs vol -> spanned_volume vs vol' -> vol = vol').
Proof. split; [intros k a v v' A H H'; exact (mean_volume_unique a A k v v' H H')|]. intros n vs vol vol' F L H H'. rewrite (spanned_gram n vs vol F L H), (spanned_gram n vs vol' F L H'). reflexivity. Qed.
Print Assumptions C71_well_defined.

(** hypotheses met: a corner with two neighbours at right angles is two-dimensional (feature
    size 1: both distances are 1 > 1/4, the area is 1 > 4 / (9 pi)) *)
Definition c71_cs : coordsys := mk_cs [((- (1))%Qc, qc 2); ((- (1))%Qc, qc 2)] false.
Definition c71_o : point := [0%Qc; 0%Qc].
Definition c71_x : point := [1%Qc; 0%Qc].
Definition c71_y : point := [0%Qc; 1%Qc].
Definition c71_g : graph point R := mk_graph [c71_o; c71_x; c71_y] [(c71_o, c71_x, 1); (c71_o, c71_y, 1)].
Theorem C71_hypotheses_met : exists rs, wf_box c71_cs /\ wf_graph c71_g /\ Forall (is_pos c71_cs) (g_nodes c71_g) /\ (forall k, good_rng (rs k) (neighbors c71_g c71_o) k) /\
  get_dimension rs c71_cs c71_g 1 c71_o 3 (Some 10%nat) = Ok 2%nat.
Proof. exists (fun k => mk_rng [] (fun s : list tuple => s)). assert (Wf : wf_graph c71_g).
  { constructor; cbn [g_nodes g_edges c71_g].
    - assert (X : dedup [c71_o; c71_x; c71_y] = [c71_o; c71_x; c71_y]) by (vm_compute; reflexivity). rewrite <- X. apply NoDup_dedup.
    - intros u v w [[= <- <- _]|[[= <- <- _]|[]]]; cbn; auto.
    - repeat constructor; vm_compute; reflexivity. }
  assert (B : wf_box c71_cs) by (repeat constructor). assert (P : Forall (is_pos c71_cs) (g_nodes c71_g)) by (repeat constructor).
  split; [exact B|]. split; [exact Wf|]. split; [exact P|]. assert (Gr : forall k, good_rng (mk_rng [] (fun s : list tuple => s)) (neighbors c71_g c71_o) k) by (intros k; constructor; cbn; auto). split; [exact Gr|].
  assert (Nb : neighbors c71_g c71_o = [c71_x; c71_y]) by reflexivity.
  assert (En : forall k, enough_draws c71_g (mk_rng [] (fun s : list tuple => s)) c71_o k (Some 10%nat)).
  { intros k. unfold enough_draws, draw_neighbour_tuple. rewrite Nb. destruct (Nat.ltb_spec (10 * 10) (binom (length [c71_x; c71_y]) k)) as [X|X]; [|reflexivity]. exfalso. destruct k as [|[|[|k]]]; cbn in X; try lia. }
  destruct (get_dimension_ok c71_cs c71_g 1 Wf B P (fun k => mk_rng [] (fun s : list tuple => s)) c71_o 3 (Some 10%nat)) as (d & E); [reflexivity|lia|exact Gr|exact En|]. rewrite E. f_equal.
  destruct (C71_local_dimension R _ _ _ _ _ _ _ _ B Wf P Gr Rlt_0_1 E) as (D1 & D2 & D3 & D4). cbn [length c71_o] in D2, D4.
  assert (Vol : forall t vol, connected_volume c71_cs c71_o t vol -> combination (neighbors c71_g c71_o) (S d) t -> (d < 2)%nat -> vol = 1).
  { intros t vol (vs & F & S) ((N & I & L) & _) Hd. rewrite Nb in I.
    assert (V : forall v, connecting_vector c71_cs c71_x c71_o = Ok v -> v = [(- (1))%Qc; 0%Qc]) by (intros v [= <-]; vm_compute; reflexivity).
    assert (V' : forall v, connecting_vector c71_cs c71_y c71_o = Ok v -> v = [0%Qc; (- (1))%Qc]) by (intros v [= <-]; vm_compute; reflexivity).
    assert (Lvs : length vs = length t) by (clear - F; induction F; cbn; auto). assert (Fl : Forall (fun v => length v = 2%nat) vs).
    { clear - F I V V'. induction F as [|q v t' vs' Ev F IH]; constructor; [|apply IH; intros z Hz; apply I; right; auto]. destruct (I q (or_introl eq_refl)) as [<-|[<-|[]]]; [rewrite (V _ Ev)|rewrite (V' _ Ev)]; reflexivity. }
    rewrite (spanned_gram 2 vs vol Fl ltac:(lia) S), Lvs, L. replace (det (Datatypes.S d) (gram vs)) with 1%Qc; [unfold Qc2R, Q2R; cbn; rewrite Rinv_1, Rmult_1_r; apply sqrt_1|].
    destruct d as [|[|]]; [| |lia].
    - destruct t as [|q [|]]; try discriminate. inversion F as [|? v ? ? Ev F']; subst. inversion F'; subst. destruct (I q (or_introl eq_refl)) as [<-|[<-|[]]]; [rewrite (V _ Ev)|rewrite (V' _ Ev)]; vm_compute; reflexivity.
    - destruct t as [|q [|q' [|]]]; try discriminate. inversion F as [|? v ? ? Ev F']; subst. inversion F' as [|? v' ? ? Ev' F'']; subst. inversion F''; subst.
      destruct (I q (or_introl eq_refl)) as [<-|[<-|[]]]; destruct (I q' (or_intror (or_introl eq_refl))) as [<-|[<-|[]]]; try (inversion N as [|? ? N1 N2]; exfalso; apply N1; left; reflexivity);
        [rewrite (V _ Ev), (V' _ Ev')|rewrite (V' _ Ev), (V _ Ev')]; vm_compute; reflexivity. }
  destruct (Nat.eq_dec d 2) as [|Hd]; auto. exfalso. assert (Hd2 : (d < 2)%nat) by lia. destruct (D4 ltac:(lia) Hd2) as (used & vols & v & Nu & Fu & Fv & Mv & T & X & _).
  assert (All1 : Forall (fun x => x = 1) vols). { clear - Fu Fv Vol Hd2. induction Fv as [|t x u' v' Hx Fv IH]; constructor; [|apply IH; inversion Fu; auto]. apply (Vol t); auto. inversion Fu; auto. }
  assert (Ne : vols <> []). { intros ->. inversion Fv; subst used. destruct X as [X|(_ & X & _)]; [|cbn in X; lia].
    assert (C : exists t, combination (neighbors c71_g c71_o) (Datatypes.S d) t).
    { rewrite Nb. destruct d as [|[|]]; [exists [c71_x]|exists [c71_y; c71_x]|lia].
      - split; [|repeat constructor]. split; [repeat constructor; auto|]. split; auto. intros z [<-|[]]; cbn; auto.
      - split; [|repeat constructor]. split; [repeat constructor; cbn; auto; intros [Q|[]]; discriminate Q|]. split; auto. intros z [<-|[<-|[]]]; cbn; auto. }
    destruct C as (t & C). destruct (X t C). }
  assert (M1 : mean vols = 1).
  { unfold mean. assert (S1 : fold_right Rplus 0 vols = INR (length vols)). { clear - All1. induction All1 as [|x l -> _ IH]; [reflexivity|]. cbn [fold_right length]. rewrite IH, S_INR. ring. }
    rewrite S1. field. apply not_0_INR. destruct vols; [congruence|discriminate]. }
  destruct T as (_ & T). assert (v / 2 < mean vols); [|assert (false = true) by (apply T; auto); discriminate]. rewrite M1.
  assert (Ex : exists e, exact_value (Datatypes.S d) = Some e /\ e < 1).
  { pose proof PI2_1. destruct d as [|[|]]; [| |lia]; cbn [exact_value]; eexists; (split; [reflexivity|]); [lra|]. apply Rmult_lt_reg_r with (9 * PI); [lra|]. unfold Rdiv. rewrite Rmult_assoc, Rinv_l by lra. lra. }
  destruct Ex as (e & Ee & Le). pose proof (mean_volume_unique 1 Rlt_0_1 _ _ _ Mv (mean_volume_exact 1 Rlt_0_1 _ _ Ee)) as ->. rewrite pow1. lra. Qed.
Print Assumptions C71_hypotheses_met.
