(** C74: what the local dimension of a position means when it is calculated in double precision. *)
From Coq Require Import ZArith Reals Psatz List Permutation.
From Coquelicot Require Import Hierarchy RInt Continuity.
From Flocq Require Import Core BinarySingleNaN.
From Verif Require Import Base BaseFacts CoordSys CoordSysR Graph SpecGraph GraphFacts SpecCluster Dimension SpecVolume VolumeMean Float FloatFacts FloatVector FloatVectorFacts FloatMin FloatCell SpecFloatCell FloatCellNum FloatDistNum FloatStepNum FloatStepFacts PropFloatVector
  FloatController FloatCluster SpecFloatCluster FloatClusterFacts PropFloatCluster FloatIdentify SpecFloatIdentify FloatSumFacts FloatAverage FloatIdentifyFacts FloatSearchExample FloatIdentifyExample PropFloatIdentify FloatLineNum PropFloatLine SpecFloatDim VolumeReal FloatDimNum FloatDimFacts.
From Coq Require Import Lra.
Import ListNotations.
Open Scope list_scope.
Open Scope R_scope.

(** The test for dimension [k] at the position [p] with the neighbours [nbrs] has the result [b]:
    the exact volumes of the parallelepipeds spanned by different choices of [k] neighbours are compared
    with half of the mean volume [v] for vectors drawn uniformly from a ball with the feature size
    as radius, with a relative error of at most 2^-17.  Either all choices are used, or the test stops
    after at least [m] and at least two of them, as soon as the mean is more than two standard errors
    from the limit (up to 2^-13 of the limit). *)
Definition ftest (per : bool) (boxes : list (double * double)) (fs : double) (nbrs : list (list double)) (p : list double) (k m : nat) (b : bool) : Prop :=
  exists used vols v, different_choices nbrs k used /\ Forall2 (rconnected_volume per boxes p) used vols /\ mean_volume k (B2R fs) v /\
    (b = true -> vols <> [] /\ (1 - bpow radix2 (-17)) * (v / 2) < mean vols) /\
    (b = false -> vols = [] \/ mean vols <= (1 + bpow radix2 (-17)) * (v / 2)) /\
    ((forall t, choice_of nbrs k t -> exists t', In t' used /\ Permutation t t') \/
     (m <= length used)%nat /\ (1 < length used)%nat /\ 2 * standard_error vols < Rabs (v / 2 - mean vols) + bpow radix2 (-13) * (v / 2)) /\
    (forall j, (m <= j)%nat -> (1 < j < length used)%nat ->
       Rabs (v / 2 - mean (firstn j vols)) - bpow radix2 (-13) * (v / 2) <= 2 * standard_error (firstn j vols)).
(** what the theorems assume about the libraries and the input *)
Definition dim_setting (env : fenvironment) (per : bool) (boxes : list (double * double)) (fs : double) (M : R) (positions : list (list double)) : Prop :=
  good_fenvironment env /\ accurate_pow (fe_pow env) /\ good_clustering boxes fs positions /\ moderate_size M boxes fs positions /\
  bpow radix2 (-15) * total_size boxes <= B2R fs /\ bpow radix2 (-100) <= B2R fs.

Lemma test_spec per boxes fs c p k me b : 0 < B2R fs -> test_of per boxes fs c p k me b -> ftest per boxes fs (neighbors c p) p k (min_evaluations c p me) b.
Proof. intros F0 (used & vols & E & EE & D & V & T & F & St & Go). exists used, vols, (B2R fs ^ k * E). split; auto. split; auto. split; [apply mean_volume_exact; [exact F0|exact EE]|]. split; [exact T|]. split; [exact F|]. split; [exact St|exact Go]. Qed.

(** *** The local dimension of a position of a cluster is the number of tests passed: for
    dimension 1, 2, ... up to the first failure, the dimension of space, and [max_dim]. *)
Theorem C74_local_dimension : forall env per boxes (fs : double) M positions c p max_dim (min_eval : option nat), dim_setting env per boxes fs M positions ->
  In c (fcreate_clusters (fe_order env) (fe_edges env) per boxes fs positions) -> In p (g_nodes c) -> (length (neighbors c p) <= 100)%nat ->
  accurate_svds (fe_svd env) per boxes (neighbors c p) p -> (max_dim <= 3)%nat ->
  let m := match min_eval with None => length (neighbors c p) | Some m => m end in
  exists d, fget_dimension env per boxes fs c p max_dim min_eval = Ok d /\ (d <= max_dim)%nat /\ (d <= length boxes)%nat /\
    (forall k, (1 <= k <= d)%nat -> ftest per boxes fs (neighbors c p) p k m true) /\
    ((d < max_dim)%nat -> (d < length boxes)%nat -> ftest per boxes fs (neighbors c p) p (S d) m false).
Proof. intros env per boxes fs M positions c p n me (Env & Pow & GC & Ms & Sm & Fs) Ic Ip Few Sv Hn m. assert (F0 : 0 < B2R fs) by (eapply Rlt_le_trans; [apply (bpow_gt_0 radix2 (-100))|exact Fs]).
  destruct (dimension_from env per boxes fs M positions c Env Pow GC Ms Sm Fs Ic p Ip Few Sv me n 1 (le_n 1) ltac:(lia) ltac:(cbn; lia)) as (d & E & _ & D2 & D3 & D4 & D5). replace (n + 1 - 1)%nat with n in D2, D5 by lia.
  exists d. split; [exact E|]. split; auto. split; auto. split; [intros k Hk; apply test_spec; [exact F0|]; apply D4; exact Hk|]. intros H1 H2. apply test_spec; [exact F0|]. apply D5; auto. Qed.
Print Assumptions C74_local_dimension.

(** *** These notions are well defined: up to three vectors span a parallelepiped of exactly one
    volume, and there is exactly one mean volume. *)
Theorem C74_well_defined : (forall n vs, Forall (fun w => length w = n) vs -> (length vs <= 3)%nat -> exists vol, rspanned vs vol /\ forall vol', rspanned vs vol' -> vol' = vol) /\
  forall k a, (1 <= k <= 3)%nat -> 0 < a -> exists v, mean_volume k a v /\ forall v', mean_volume k a v' -> v' = v.
Proof. split.
  - intros n vs F L. destruct (rspanned_exists n vs F L) as (vol & S). exists vol. split; auto. intros vol' S'. eapply rspanned_unique; eauto.
  - intros k a K A. destruct (fexact_some k K) as (_ & E & _ & EE). exists (a ^ k * E). split; [apply mean_volume_exact; auto|]. intros v' M'. apply (mean_volume_unique a A k v'); auto. apply mean_volume_exact; auto. Qed.
Print Assumptions C74_well_defined.

(** the limit in terms of the exact values *)
Lemma limit_of per boxes fs nbrs p k m b E : 0 < B2R fs -> exact_value k = Some E -> ftest per boxes fs nbrs p k m b -> exists used vols, different_choices nbrs k used /\ Forall2 (rconnected_volume per boxes p) used vols /\
  (b = true -> vols <> [] /\ (1 - bpow radix2 (-17)) * (B2R fs ^ k * E / 2) < mean vols) /\ (b = false -> vols = [] \/ mean vols <= (1 + bpow radix2 (-17)) * (B2R fs ^ k * E / 2)) /\ ((forall t, choice_of nbrs k t -> exists t', In t' used /\ Permutation t t') \/ (1 < length used)%nat).
Proof. intros F EE (used & vols & v & D & V & Mv & Tb & Fb & St). exists used, vols. split; auto. split; auto. assert (E1 : v = B2R fs ^ k * E) by (apply (mean_volume_unique (B2R fs) F k); auto; apply mean_volume_exact; auto). rewrite <- E1. split; auto. split; auto. tauto. Qed.

Section Neighbourhood.
  Variables (env : fenvironment) (per : bool) (boxes : list (double * double)) (fs : double) (M : R) (positions : list (list double)) (c : graph fpoint double) (p : fpoint).
  Hypothesis St : dim_setting env per boxes fs M positions.
  Hypothesis Ic : In c (fcreate_clusters (fe_order env) (fe_edges env) per boxes fs positions).
  Hypothesis Ip : In p (g_nodes c).
  Hypothesis Few : (length (neighbors c p) <= 100)%nat.
  Hypothesis Sv : accurate_svds (fe_svd env) per boxes (neighbors c p) p.
  Lemma fs_pos : 0 < B2R fs. Proof. destruct St as (_ & _ & _ & _ & _ & Fs). eapply Rlt_le_trans; [apply (bpow_gt_0 radix2 (-100))|exact Fs]. Qed.
  Lemma lead_short q v : In q (neighbors c p) -> leads per boxes p q v -> length v = length boxes /\ rlength v <= 1002 / 1000 * B2R fs.
  Proof. intros Iq Lv. destruct St as (Env & Pow & GC & Ms & Sm & Fs). split; [|exact (lead_bound env per boxes fs M positions c Env GC Ms Sm Fs Ic p q v Iq Lv)]. destruct Lv as ((ks & Lk & _ & ->) & _).
    destruct (nbr_near env per boxes fs M positions c Env GC Ms Sm Fs Ic p q Iq) as ((Gq & _) & _). destruct (node_moderate env per boxes fs M positions c Env GC Ms Ic p Ip) as (Gp & _). apply image_diff_length; auto; unfold place; rewrite map_length; symmetry; eapply forall2_len; eauto. Qed.
  (** every volume is small *)
  Lemma small_volumes k m E B : exact_value k = Some E -> B <= (1 - bpow radix2 (-17)) * (B2R fs ^ k * E / 2) ->
    (forall t vs, choice_of (neighbors c p) k t -> Forall2 (leads per boxes p) t vs -> forall vol, rspanned vs vol -> vol <= B) -> ~ ftest per boxes fs (neighbors c p) p k m true.
  Proof. intros EE HB H T. destruct (limit_of per boxes fs _ p k m true E fs_pos EE T) as (used & vols & (Ch & _) & V & Tb & _ & _). destruct (Tb eq_refl) as (Ne & Mv). apply (Rlt_irrefl (mean vols)). eapply Rle_lt_trans; [|exact Mv]. eapply Rle_trans; [|exact HB].
    apply (mean_below B vols Ne). clear - V Ch H. induction V as [|t v used vols (vs & L & S) V IH]; constructor; [|apply IH; exact (Forall_inv_tail Ch)]. exact (H t vs (Forall_inv Ch) L v S). Qed.
  (** every distance is large *)
  Lemma large_distances m : (exists q, In q (neighbors c p)) -> (forall q, In q (neighbors c p) -> ~ within_dist per boxes p q ((1 + bpow radix2 (-16)) * (B2R fs / 4))) -> ~ ftest per boxes fs (neighbors c p) p 1 m false.
  Proof. intros (q0 & Iq0) Far T. destruct (limit_of per boxes fs _ p 1 m false (1 / 2) fs_pos eq_refl T) as (used & vols & (Ch & _) & V & _ & Fb & Al).
    assert (Ne : vols <> []). { intros ->. inversion V. subst. destruct Al as [Al|Al]; [|cbn in Al; lia]. destruct (Al [q0]) as (t' & [] & _). split; [constructor; [intros []|constructor]|]. split; [intros x [<-|[]]; exact Iq0|reflexivity]. }
    destruct (Fb eq_refl) as [E|Mv]; [exact (Ne E)|]. pose proof fs_pos as F0.
    assert (A : (1 + bpow radix2 (-16)) * (B2R fs / 4) <= mean vols).
    { apply (mean_above _ vols Ne). clear - V Ch Far F0. induction V as [|t v used vols (vs & L & S) V IH]; constructor; [|apply IH; exact (Forall_inv_tail Ch)]. destruct (Forall_inv Ch) as (_ & I & Lt). destruct t as [|q [|]]; try discriminate Lt. inversion L as [|? w ? l Lw L' E1 E2]. subst. inversion L'. subst.
      destruct Lw as ((ks & Lk & Z & Ew) & _). assert (Ev : v = rlength w). { assert (F : Forall (fun x => length x = length w) [w]) by (repeat constructor). rewrite (rspanned_value (length w) [w] v F ltac:(cbn; lia) S). apply rvolume1. }
      destruct (Rle_lt_dec ((1 + bpow radix2 (-16)) * (B2R fs / 4)) v) as [|Lt']; auto. exfalso. apply (Far q (I q (or_introl eq_refl))). exists ks. split; auto. split; auto.
      assert (Eq : image_dist_sq boxes p q ks = rlength w * rlength w). { rewrite rlen_square, Ew. clear. revert p q ks. induction boxes as [|b bs IH]; intros [|x p] [|y q] [|k ks]; cbn [image_dist_sq image_diff place map rdot]; auto. rewrite IH. unfold place. ring. }
      rewrite Eq. rewrite <- Ev. assert (V0 : 0 <= v) by (rewrite Ev; apply rlen_pos). replace (v * v) with (v ^ 2) by ring. apply pow_incr. lra. }
    pose proof (bpow_gt_0 radix2 (-17)) as P. assert (E16 : bpow radix2 (-16) = 2 * bpow radix2 (-17)) by (change (bpow radix2 (-16)) with (/ 65536); change (bpow radix2 (-17)) with (/ 131072); lra). rewrite E16 in A. replace (B2R fs ^ 1 * (1 / 2) / 2) with (B2R fs / 4) in Mv by field. assert (0 < bpow radix2 (-17) * (B2R fs / 4)) by (apply Rmult_lt_0_compat; lra). lra. Qed.
End Neighbourhood.

(** *** A position that has neighbours, all of them further away than a quarter of the feature size, has
    at least the local dimension 1. *)
Theorem C74_spread : forall env per boxes (fs : double) M positions c p (min_eval : option nat) d, dim_setting env per boxes fs M positions ->
  In c (fcreate_clusters (fe_order env) (fe_edges env) per boxes fs positions) -> In p (g_nodes c) -> (length (neighbors c p) <= 100)%nat ->
  accurate_svds (fe_svd env) per boxes (neighbors c p) p ->
  (exists q, In q (neighbors c p)) -> (forall q, In q (neighbors c p) -> ~ within_dist per boxes p q ((1 + bpow radix2 (-16)) * (B2R fs / 4))) ->
  fget_dimension env per boxes fs c p 3 min_eval = Ok d -> (1 <= d)%nat.
Proof. intros env per boxes fs M positions c p me d St Ic Ip Few Sv Ex Far E. destruct (C74_local_dimension env per boxes fs M positions c p 3 me St Ic Ip Few Sv (le_n 3)) as (d' & E' & D1 & D2 & D3 & D4). rewrite E in E'. injection E' as <-.
  destruct d as [|d]; [exfalso|lia]. assert (Lb : (0 < length boxes)%nat) by (destruct St as (_ & _ & (_ & Nb & _) & _); destruct boxes; [congruence|cbn; lia]). exact (large_distances env per boxes fs M positions c p St Few _ Ex Far (D4 ltac:(lia) Lb)). Qed.
Print Assumptions C74_spread.

(** *** A position whose neighbours are within a fifteenth of the feature size of a straight line
    through it has at most the local dimension 1; if they are within a fortieth of the feature
    size of a plane through it, at most 2. *)
Theorem C74_thin : forall env per boxes (fs : double) M positions c p (min_eval : option nat) d us, dim_setting env per boxes fs M positions ->
  In c (fcreate_clusters (fe_order env) (fe_edges env) per boxes fs positions) -> In p (g_nodes c) -> (length (neighbors c p) <= 100)%nat ->
  accurate_svds (fe_svd env) per boxes (neighbors c p) p -> Forall (fun u => length u = length boxes) us ->
  (length us = 1%nat /\ (forall q v, In q (neighbors c p) -> leads per boxes p q v -> near_span us (B2R fs / 15) v) \/
   length us = 2%nat /\ (forall q v, In q (neighbors c p) -> leads per boxes p q v -> near_span us (B2R fs / 40) v)) ->
  fget_dimension env per boxes fs c p 3 min_eval = Ok d -> (d <= length us)%nat.
Proof. intros env per boxes fs M positions c p me d us St Ic Ip Few Sv Fu H E. destruct (C74_local_dimension env per boxes fs M positions c p 3 me St Ic Ip Few Sv (le_n 3)) as (d' & E' & D1 & D2 & D3 & D4). rewrite E in E'. injection E' as <-.
  destruct (le_lt_dec d (length us)) as [|Lt]; auto. exfalso. specialize (D3 (S (length us)) ltac:(lia)). pose proof (fs_pos env per boxes fs M positions St) as F0. pose proof pi_bounds as PB. assert (S17 : bpow radix2 (-17) = / 131072) by reflexivity.
  destruct H as [(Lu & H)|(Lu & H)]; rewrite Lu in D3.
  - destruct us as [|u [|]]; try discriminate Lu. pose proof (Forall_inv Fu) as Lu'. cbn beta in Lu'. revert D3. set (f := B2R fs) in *.
    apply (small_volumes env per boxes fs M positions c p St 2 _ (8 / (9 * PI)) (f / 15 * (1002 / 1000 * f) + f / 15 * (1002 / 1000 * f + f / 15)) eq_refl).
    + fold f. rewrite S17. assert (Q : / PI >= / 3.14159266) by (apply Rle_ge, Rinv_le_contravar; lra). replace (8 / (9 * PI)) with (8 / 9 * / PI) by (field; lra). assert (0 < f * f) by (apply Rmult_lt_0_compat; lra). replace (f ^ 2) with (f * f) by ring. assert (f * f * (8 / 9 * / 3.14159266) <= f * f * (8 / 9 * / PI)) by (apply Rmult_le_compat_l; lra). lra.
    + intros t vs (_ & I & L) Lv vol S. destruct t as [|q1 [|q2 [|]]]; try discriminate L. inversion Lv as [|? v1 ? l V1 L' E1 E2]. subst. inversion L' as [|? v2 ? l' V2 L'' E1 E2]. subst. inversion L''. subst.
      assert (I1 : In q1 (neighbors c p)) by (apply I; left; reflexivity). assert (I2 : In q2 (neighbors c p)) by (apply I; right; left; reflexivity). destruct (lead_short env per boxes fs M positions c p St Ic Ip q1 v1 I1 V1) as (N1 & B1). destruct (lead_short env per boxes fs M positions c p St Ic Ip q2 v2 I2 V2) as (N2 & B2).
      rewrite (rspanned_value (length boxes) [v1; v2] vol ltac:(repeat constructor; assumption) ltac:(cbn; lia) S). apply (thin_area (length boxes) u); auto; try (fold f; lra); [exact (H q1 v1 I1 V1)|exact (H q2 v2 I2 V2)].
  - destruct us as [|u [|w [|]]]; try discriminate Lu. pose proof (Forall_inv Fu) as Lu'. pose proof (Forall_inv (Forall_inv_tail Fu)) as Lw'. cbn beta in Lu', Lw'. revert D3. set (f := B2R fs) in *.
    apply (small_volumes env per boxes fs M positions c p St 3 _ (27 * PI / 512) (3 * (f / 40 * ((1002 / 1000 * f + f / 40) * (1002 / 1000 * f + f / 40)))) eq_refl).
    + fold f. rewrite S17. assert (0 < f * f) by (apply Rmult_lt_0_compat; lra). assert (0 < f ^ 3) by (replace (f ^ 3) with (f * f * f) by ring; apply Rmult_lt_0_compat; lra). replace (3 * (f / 40 * ((1002 / 1000 * f + f / 40) * (1002 / 1000 * f + f / 40)))) with (f ^ 3 * (3 / 40 * (1027 / 1000 * (1027 / 1000)))) by field. assert (f ^ 3 * (27 * 3.14159265 / 512) <= f ^ 3 * (27 * PI / 512)) by (apply Rmult_le_compat_l; lra). lra.
    + intros t vs (_ & I & L) Lv vol S. destruct t as [|q1 [|q2 [|q3 [|]]]]; try discriminate L. inversion Lv as [|? v1 ? l V1 L' E1 E2]. subst. inversion L' as [|? v2 ? l' V2 L'' E1 E2]. subst. inversion L'' as [|? v3 ? l'' V3 L3 E1 E2]. subst. inversion L3. subst.
      assert (I1 : In q1 (neighbors c p)) by (apply I; left; reflexivity). assert (I2 : In q2 (neighbors c p)) by (apply I; right; left; reflexivity). assert (I3 : In q3 (neighbors c p)) by (apply I; right; right; left; reflexivity). destruct (lead_short env per boxes fs M positions c p St Ic Ip q1 v1 I1 V1) as (N1 & B1). destruct (lead_short env per boxes fs M positions c p St Ic Ip q2 v2 I2 V2) as (N2 & B2). destruct (lead_short env per boxes fs M positions c p St Ic Ip q3 v3 I3 V3) as (N3 & B3).
      rewrite (rspanned_value (length boxes) [v1; v2; v3] vol ltac:(repeat constructor; assumption) ltac:(cbn; lia) S). apply (flat_volume (length boxes) u w); auto; try (fold f; lra); [exact (H q1 v1 I1 V1)|exact (H q2 v2 I2 V2)|exact (H q3 v3 I3 V3)]. Qed.
Print Assumptions C74_thin.

(** *** A cluster is a line (dimension 1) if this holds for all its positions: neighbours, all of
    them further away than a quarter of the feature size and within a fifteenth of the feature size of a
    straight line through the position. *)
Theorem C74_line : forall env per boxes (fs : double) M positions c, dim_setting env per boxes fs M positions ->
  In c (fcreate_clusters (fe_order env) (fe_edges env) per boxes fs positions) ->
  (forall p, In p (g_nodes c) -> (length (neighbors c p) <= 100)%nat /\ accurate_svds (fe_svd env) per boxes (neighbors c p) p /\
     (exists q, In q (neighbors c p)) /\ (forall q, In q (neighbors c p) -> ~ within_dist per boxes p q ((1 + bpow radix2 (-16)) * (B2R fs / 4))) /\
     exists u, length u = length boxes /\ forall q v, In q (neighbors c p) -> leads per boxes p q v -> near_span [u] (B2R fs / 15) v) ->
  fcalculate_dimension env per boxes fs c = Ok (Some 1%nat) /\
  (forall l, fe_line env c = Ok l -> fidentify_cluster env per boxes fs c = Ok (mk_fident (g_nodes c) (Some 1%nat) (Some (FNodalLine l)))).
Proof. intros env per boxes fs M positions c St Ic H. assert (D : fcalculate_dimension env per boxes fs c = Ok (Some 1%nat)).
  { pose proof St as (Env & _ & GC & Ms & _). assert (Sh : any_order (fe_shuffle env c)) by apply Env. destruct (C69_partition (fe_order env) (fe_edges env) per boxes fs positions (proj1 Env) (proj1 (proj2 Env)) GC) as (_ & _ & Pos & Ne). destruct (Ne c Ic) as (Nc & _).
    pose proof (fcluster_wf (fe_order env) (fe_edges env) per boxes fs positions (proj1 Env) (proj1 (proj2 Env)) (gc_finite boxes fs positions GC) c Ic) as W. assert (Nd : NoDup (g_nodes c)) by apply W. destruct Ms as (_ & _ & _ & _ & Ln). assert (Lc : (length (g_nodes c) <= 2 ^ 20)%nat) by (eapply Nat.le_trans; [|exact Ln]; apply NoDup_incl_length; auto; intros x Ix; exact (Pos c x Ic Ix)).
    unfold fcalculate_dimension. pose proof (Sh (g_nodes c)) as Pm. set (sh := fe_shuffle env c (g_nodes c)) in *. assert (Lsh : length sh = length (g_nodes c)) by (apply Permutation_length; first [exact Pm|apply Permutation_sym; exact Pm]).
    refine (count_same 1 _ 5 sh 0 0 _ _ _ _ eq_refl).
    - apply le_n_S, Nat.le_0_l.
    - intros p Ip'. assert (Ip : In p (g_nodes c)) by (eapply Permutation_in; [exact Pm|exact Ip']). destruct (H p Ip) as (Few & Sv & Ex & Far & u & Lu & Nr).
      destruct (C74_local_dimension env per boxes fs M positions c p 3 (Some 10%nat) St Ic Ip Few Sv (le_n 3)) as (d & E & _). rewrite E. f_equal. apply Nat.le_antisymm.
      + apply (C74_thin env per boxes fs M positions c p (Some 10%nat) d [u] St Ic Ip Few Sv); auto.
      + exact (C74_spread env per boxes fs M positions c p (Some 10%nat) d St Ic Ip Few Sv Ex Far E).
    - cbn [Nat.add]. rewrite Lsh. exact Lc.
    - cbn [Nat.add]. rewrite Lsh. destruct (g_nodes c); [congruence|]. apply le_n_S, Nat.le_0_l. }
  split; auto. intros l El. unfold fidentify_cluster. rewrite D. cbn [bind fevaluate_cluster]. rewrite El. reflexivity. Qed.
Print Assumptions C74_line.

(** hypotheses met: libraries as required *)
Definition fpow3 (x : double) (n : nat) : double := match n with 0%nat => fone | 1%nat => x | 2%nat => fmul x x | _ => fmul (fmul x x) x end.
Lemma fpow3_accurate : accurate_pow fpow3.
Proof. intros x n N Fx Bx. change (B2R x) with (val x) in *. change (bpow radix2 (-50)) with (pw (-50)). assert (U : pw (-50) = 8 * pw (-53)) by (change 8 with (pw 3); rewrite pw_mul; reflexivity). pose proof (pw_pos (-53)) as P53. assert (U6 : pw (-60) <= / 8 * pw (-53)) by (apply Rle_trans with (pw (-56)); [apply pw_le; lia|right; change (/ 8) with (pw (-3)); rewrite pw_mul; reflexivity]). assert (U1 : pw (-53) <= / 8) by (change (/ 8) with (pw (-3)); apply pw_le; lia). pose proof (f_pos (val x) Bx) as X0.
  assert (S : forall a b : double, fin a -> fin b -> 0 <= val a * val b <= pw 400 -> fin (fmul a b) /\ 0 <= val (fmul a b) /\ Rabs (val (fmul a b) - val a * val b) <= pw (-53) * (val a * val b) + pw (-1075)).
  { intros a b Fa Fb B. destruct (fmul_val a b 400 ltac:(lia) Fa Fb) as (Fm & Vm); [rewrite Rabs_pos_eq; lra|]. split; auto. pose proof (rnd_rel (val a * val b)) as R1. rewrite <- Vm in R1. rewrite (Rabs_pos_eq (val a * val b)) in R1 by lra. split; [rewrite Vm; apply rnd_pos; lra|exact R1]. }
  destruct n as [|[|[|[|n]]]]; try lia; cbn [fpow3].
  - destruct fone_val as (F1 & V1). split; [exact F1|]. change (B2R fone) with (val fone). rewrite V1. cbn [pow]. apply abs_le. lra.
  - split; [exact Fx|]. change (B2R x) with (val x). cbn [pow]. rewrite Rmult_1_r. assert (0 < pw (-53) * val x) by (apply Rmult_lt_0_compat; lra). apply abs_le. rewrite U. lra.
  - destruct (tiny_pow (val x) Bx 2 N) as (T & F0). destruct (pow_range (val x) Bx 2 N) as (_ & FU). replace (val x ^ 2) with (val x * val x) in * by ring. destruct (S x x Fx Fx) as (Fm & M0 & Em); [split; [lra|]; eapply Rle_trans; [exact FU|apply pw_le; lia]|]. split; [exact Fm|]. change (B2R (fmul x x)) with (val (fmul x x)). set (F := val x * val x) in *. clearbody F. assert (0 < pw (-53) * F) by (apply Rmult_lt_0_compat; lra). assert (pw (-60) * F <= / 8 * pw (-53) * F) by (apply Rmult_le_compat_r; lra). rewrite U. apply abs_le in Em. apply abs_le. lra.
  - destruct (tiny_pow (val x) Bx 2 ltac:(lia)) as (T & F0). destruct (pow_range (val x) Bx 2 ltac:(lia)) as (_ & FU). replace (val x ^ 2) with (val x * val x) in * by ring. destruct (S x x Fx Fx) as (Fm & M0 & Em); [split; [lra|]; eapply Rle_trans; [exact FU|apply pw_le; lia]|].
    destruct (tiny_pow (val x) Bx 3 N) as (T3 & F3). destruct (pow_range (val x) Bx 3 N) as (_ & FU3). replace (val x ^ 3) with (val x * val x * val x) in * by ring. set (F := val x * val x) in *. clearbody F. set (m := fmul x x) in *. clearbody m. assert (0 < pw (-53) * F) by (apply Rmult_lt_0_compat; lra). assert (pw (-60) * F <= / 8 * pw (-53) * F) by (apply Rmult_le_compat_r; lra).
    assert (Em' : Rabs (val m - F) <= 2 * pw (-53) * F) by (apply abs_le in Em; apply abs_le; lra). assert (Bm : val m <= 2 * F). { apply abs_le in Em'. assert (2 * pw (-53) * F <= F) by (replace F with (1 * F) at 2 by ring; apply Rmult_le_compat_r; lra). lra. }
    assert (Er : Rabs (val m * val x - F * val x) <= 2 * pw (-53) * (F * val x)). { replace (val m * val x - F * val x) with ((val m - F) * val x) by ring. rewrite Rabs_mult, (Rabs_pos_eq (val x)) by lra. replace (2 * pw (-53) * (F * val x)) with (2 * pw (-53) * F * val x) by ring. apply Rmult_le_compat_r; lra. }
    assert (Bp : 0 <= val m * val x <= 2 * (F * val x)) by (split; [apply Rmult_le_pos; lra|]; replace (2 * (F * val x)) with (2 * F * val x) by ring; apply Rmult_le_compat_r; lra).
    assert (U61 : 2 * (F * val x) <= pw 400) by (apply Rle_trans with (pw 1 * pw 60); [change (pw 1) with 2; lra|rewrite pw_mul; apply pw_le; lia]). destruct (S m x Fm Fx) as (Fn & _ & En); [lra|]. split; [exact Fn|]. change (B2R (fmul m x)) with (val (fmul m x)). set (G := F * val x) in *. clearbody G. assert (0 < pw (-53) * G) by (apply Rmult_lt_0_compat; lra). assert (pw (-60) * G <= / 8 * pw (-53) * G) by (apply Rmult_le_compat_r; lra). assert (pw (-53) * (val m * val x) <= pw (-53) * (2 * G)) by (apply Rmult_le_compat_l; lra). rewrite U. apply abs_le in En, Er. apply abs_le. lra. Qed.
Definition dim_fenv : fenvironment :=
  mk_fenv (fun l => l) (fun l => l) (fun _ l => l) (fun g p dim => combinations dim (neighbors g p)) fsum_left fsum_left
    (fun vs => match vs with [v] => Ok [fnorm v] | [v; w] => Ok [fnorm v; fnorm w] | _ => Ok [] end) fpow3 (fun g => Err IndexError).
Lemma dim_fenv_good : good_fenvironment dim_fenv.
Proof. destruct simple_fenv_good as (A1 & A2 & A3 & A4 & A5 & A6 & A7 & _). split; [exact A1|]. split; [exact A2|]. split; [exact A3|]. split; [exact A4|]. split; [exact A5|]. split; [exact A6|]. split; [|reflexivity]. intros v Nv Lv H. exact (A7 v Nv Lv H). Qed.
(** two perpendicular vectors *)
Lemma svd_perpendicular (v w : fpoint) n : (n <= 64)%nat -> length v = n -> length w = n -> Forall (fun x => fin x /\ Rabs (val x) <= pw 400) v -> Forall (fun x => fin x /\ Rabs (val x) <= pw 400) w -> rdot (place v) (place w) = 0 ->
  accurate_svd_of (fe_svd dim_fenv) n [v; w].
Proof. intros Hn Lv Lw Fv Fw P. exists [fnorm v; fnorm w], [rlength (place v); rlength (place w)]. split; [reflexivity|]. split; [reflexivity|].
  assert (Z : forall a x y, length x = n -> length y = n -> rcombined (repeat 0 n) [a; 0] [x; y] = map (Rmult a) x /\ rcombined (repeat 0 n) [0; a] [x; y] = map (Rmult a) y).
  { clear. intros a x y Lx Ly. cbn [rcombined]. revert x y Lx Ly. induction n as [|n IH]; intros [|x0 x] [|y0 y] Lx Ly; try discriminate; [split; reflexivity|]. cbn [repeat map radd]. injection Lx as Lx. injection Ly as Ly. destruct (IH x y Lx Ly) as (E1 & E2). rewrite E1, E2. split; f_equal; ring. }
  assert (One : forall x, map (Rmult 1) x = x) by (induction x as [|y x IHx]; cbn; [reflexivity|rewrite IHx; f_equal; ring]).
  assert (Lpv : length (place v) = n) by (unfold place; rewrite map_length; exact Lv). assert (Lpw : length (place w) = n) by (unfold place; rewrite map_length; exact Lw).
  split.
  - exists [[1; 0]; [0; 1]]. split; [reflexivity|]. split; [repeat constructor|]. split.
    + intros i j a b Ha Hb. destruct i as [|[|i]]; [| |destruct i; discriminate Ha]; (destruct j as [|[|j]]; [| |destruct j; discriminate Hb]); injection Ha as <-; injection Hb as <-; cbn; ring.
    + cbn [map]. destruct (Z 1 (place v) (place w) Lpv Lpw) as (E1 & E2). rewrite One in E1. rewrite One in E2. rewrite E1, E2. split; [repeat constructor|]. intros i j a b Ha Hb Ne. destruct i as [|[|i]]; [| |destruct i; discriminate Ha]; (destruct j as [|[|j]]; [| |destruct j; discriminate Hb]); injection Ha as <-; injection Hb as <-; try (elim Ne; reflexivity); auto. rewrite rdot_comm. exact P.
  - assert (K : forall x e, length x = n -> Forall (fun x => fin x /\ Rabs (val x) <= pw 400) x -> rlength (place x) <= e -> is_finite (fnorm x) = true /\ 0 <= B2R (fnorm x) /\ Rabs (B2R (fnorm x) - rlength (place x)) <= bpow radix2 (-40) * e + bpow radix2 (-500)).
    { intros x e Lx Fx He. destruct (norm_accurate x) as (F & N0 & A); [rewrite Lx; exact Hn|eapply Forall_impl; [|exact Fx]; intros y (Fy & By); split; auto; eapply Rle_trans; [exact By|apply pw_le; lia]|]. split; [exact F|]. split; [exact N0|]. unfold place. rewrite sumsq_rlength. rewrite <- sumsq_rlength. rewrite <- sumsq_rlength in A. eapply Rle_trans; [exact A|]. apply Rplus_le_compat_r. apply Rmult_le_compat; [left; apply pw_pos|apply rlen_pos|apply pw_le; lia|exact He]. }
    pose proof (rlen_pos (place v)). pose proof (rlen_pos (place w)). cbn [fold_right]. constructor; [apply K; auto; lra|]. constructor; [apply K; auto; lra|constructor]. Qed.

Lemma quarter_val n : (0 <= n <= 3)%Z -> is_finite (of_dyadic n (-2)) = true /\ B2R (of_dyadic n (-2)) = IZR n / 4.
Proof. intros Hn. destruct (of_dyadic_val n (-2) ltac:(lia) ltac:(lia)) as (A & B). split; [exact A|exact B]. Qed.
Lemma line_setting : dim_setting dim_fenv true ex_boxes c73_fs 1 c73_line.
Proof. destruct C73_hypotheses_met as (_ & _ & _ & GC & Ms & _). destruct ex_size as (Es & _). assert (Vf : B2R c73_fs = / 4) by (unfold c73_fs; rewrite (proj2 (quarter_val 1 ltac:(lia))); lra). split; [apply dim_fenv_good|]. split; [apply fpow3_accurate|]. split; [exact GC|]. split; [exact Ms|]. unfold total_size. cbn [ex_boxes map fold_right]. rewrite Es, Vf. split; [change (bpow radix2 (-15)) with (/ 32768); lra|change (/ 4) with (bpow radix2 (-2)); apply bpow_le; lia]. Qed.
Theorem C74_line_hypotheses_met : dim_setting dim_fenv true ex_boxes c73_fs 1 c73_line /\
  exists c, In c (fcreate_clusters (fe_order dim_fenv) (fe_edges dim_fenv) true ex_boxes c73_fs c73_line) /\ length (g_nodes c) = 4%nat /\
  (forall p, In p (g_nodes c) -> (length (neighbors c p) <= 100)%nat /\ accurate_svds (fe_svd dim_fenv) true ex_boxes (neighbors c p) p /\
     (exists q, In q (neighbors c p)) /\ (forall q, In q (neighbors c p) -> ~ within_dist true ex_boxes p q ((1 + bpow radix2 (-16)) * (B2R c73_fs / 4))) /\
     exists u, length u = length ex_boxes /\ forall q v, In q (neighbors c p) -> leads true ex_boxes p q v -> near_span [u] (B2R c73_fs / 15) v).
Proof. pose proof line_setting as St. split; [exact St|]. destruct C73_hypotheses_met as (_ & _ & _ & GC & _ & _ & _ & F0 & _ & (c & Ec & Lc & _ & Nb) & _). exists c. assert (Ic : In c (fcreate_clusters (fe_order dim_fenv) (fe_edges dim_fenv) true ex_boxes c73_fs c73_line)) by (change (In c (fcreate_clusters (fe_order simple_fenv) (fe_edges simple_fenv) true ex_boxes c73_fs c73_line)); rewrite Ec; left; reflexivity). split; [exact Ic|]. split; [exact Lc|].
  assert (Q : forall x, In x c73_line -> exists n, (0 <= n <= 3)%Z /\ x = d1 n (-2)) by (intros x [<-|[<-|[<-|[<-|[]]]]]; eexists; (split; [|reflexivity]); lia).
  assert (HO : any_order (fe_order dim_fenv)) by (intros l0; apply Permutation_refl). assert (EO : any_order (fe_edges dim_fenv)) by (intros l0; apply Permutation_refl). pose proof (gc_finite ex_boxes c73_fs c73_line GC) as Pf.
  pose proof (C69_partition (fe_order dim_fenv) (fe_edges dim_fenv) true ex_boxes c73_fs c73_line HO EO GC) as (_ & _ & Pos & _). pose proof (fcluster_wf (fe_order dim_fenv) (fe_edges dim_fenv) true ex_boxes c73_fs c73_line HO EO Pf c Ic) as W.
  intros p Ip. split; [|split; [|split; [|split]]].
  - eapply Nat.le_trans; [apply (NoDup_incl_length (l' := g_nodes c)); [apply nodup_neighbors; exact W|]|rewrite Lc; lia]. intros q Iq. apply in_neighbors in Iq. apply (wf_ends W Iq).
  - intros t vs _ _ (L2 & _) L1. cbn in L1. exfalso. lia.
  - destruct (Nb p Ip) as (y & Ey & _). exists y. apply in_neighbors. exact Ey.
  - intros q Iq Wd. apply in_neighbors in Iq. assert (Vf : B2R c73_fs = / 4) by (unfold c73_fs; rewrite (proj2 (quarter_val 1 ltac:(lia))); lra). assert (Ne : p <> q). { intros <-. apply (fcluster_edges (fe_order dim_fenv) (fe_edges dim_fenv) true ex_boxes c73_fs c73_line HO EO Pf c p p Ic Ip) in Iq. pose proof (fus_nodup (fe_order dim_fenv) c73_line HO Pf) as Nu. destruct Iq as [(B & _)|(B & _)]; exact (before_neq _ p p Nu B eq_refl). }
    destruct (wf_ends W Iq) as (_ & Iq'). destruct (Q p (Pos c p Ic Ip)) as (n & Hn & ->). destruct (Q q (Pos c q Ic Iq')) as (k & Hk & ->). apply within_place_iff in Wd. unfold place, d1 in Wd. cbn [map] in Wd. rewrite (proj2 (quarter_val n Hn)), (proj2 (quarter_val k Hk)), Vf in Wd. change (bpow radix2 (-16)) with (/ 65536) in Wd.
    apply within_unit in Wd; [|lra]. destruct Wd as (j & Wd). assert (Z : (n - k - 4 * j)%Z <> 0%Z) by (intros X; apply Ne; assert (n = k) by lia; subst; reflexivity). assert (A : 1 <= Rabs (IZR (n - k - 4 * j))) by (rewrite <- abs_IZR; apply IZR_le; lia). rewrite !minus_IZR, mult_IZR in A. apply Rabs_le_inv in Wd. unfold Rabs in A. destruct (Rcase_abs _); lra.
  - exists [1]. split; [reflexivity|]. intros q v Iq Lv. destruct (lead_short dim_fenv true ex_boxes c73_fs 1 c73_line c p St Ic Ip q v Iq Lv) as (L & _). destruct v as [|x [|]]; try discriminate L. exists [x], [0]. split; [reflexivity|]. split; [reflexivity|]. split; [cbn; f_equal; ring|]. change (B2R c73_fs) with (val c73_fs) in *. unfold rlength. cbn [map fold_right]. replace (0 ^ 2 + 0) with 0 by ring. rewrite sqrt_0. change (B2R c73_fs) with (val c73_fs) in F0. lra. Qed.
Print Assumptions C74_line_hypotheses_met.

(** hypotheses met: three positions of the unit square, at a right angle; the local dimension of the
    one at the corner is 2 *)
Definition c74_boxes : list (double * double) := [(B754_zero false, fone); (B754_zero false, fone)].
Definition q2d (m n : Z) : fpoint := [of_dyadic m (-2); of_dyadic n (-2)].
Definition c74_corner : list (list double) := [q2d 2 2; q2d 3 2; q2d 2 3].
Lemma corner_setting : dim_setting dim_fenv false c74_boxes c73_fs 1 c74_corner.
Proof. destruct ex_size as (Es & El). destruct fone_unit as (F1 & V1). assert (Vf : B2R c73_fs = / 4) by (unfold c73_fs; rewrite (proj2 (quarter_val 1 ltac:(lia))); lra). split; [apply dim_fenv_good|]. split; [apply fpow3_accurate|].
  assert (K : forall n, (0 <= n <= 3)%Z -> is_finite (of_dyadic n (-2)) = true /\ 0 <= B2R (of_dyadic n (-2)) <= 1) by (intros n Hn; destruct (quarter_val n Hn) as (A & B); split; [exact A|]; rewrite B; destruct Hn as (H0 & H3); apply IZR_le in H0, H3; lra).
  assert (G : Forall good_box c74_boxes) by (pose proof ex_boxes_good as G; constructor; [exact (Forall_inv G)|exact G]).
  split. { split; [exact G|]. split; [discriminate|]. split; [cbn; lia|]. split; [apply (proj1 (quarter_val 1 ltac:(lia)))|]. 
    assert (C : forall n, (0 <= n <= 3)%Z -> good_coord (B754_zero false, fone) (of_dyadic n (-2))) by (intros n Hn; destruct (K n Hn) as (A & B); split; [exact A|]; rewrite Es; cbn [fst]; rewrite El; change (bpow radix2 10) with 1024; rewrite Rminus_0_r; apply Rabs_le; lra).
    apply Forall_forall. intros p [<-|[<-|[<-|[]]]]; (constructor; [apply C; lia|constructor; [apply C; lia|constructor]]). }
  split. { split; [change (bpow radix2 20) with 1048576; lra|]. split; [rewrite Vf; change (bpow radix2 20) with 1048576; lra|]. split; [apply Forall_forall; intros bx [<-|[<-|[]]]; cbn [fst snd]; rewrite ?V1; cbn [B2R]; rewrite ?Rabs_R0, ?Rabs_R1; change (bpow radix2 20) with 1048576; lra|]. split; [apply Forall_forall; intros p [<-|[<-|[<-|[]]]]; (constructor; [apply Rabs_le|constructor; [apply Rabs_le|constructor]]); match goal with |- context [of_dyadic ?n (-2)] => pose proof (K n ltac:(lia)) end; lra|]. apply Nat.leb_le. vm_compute. reflexivity. }
  unfold total_size. cbn [c74_boxes map fold_right]. rewrite Es, Vf. split; [change (bpow radix2 (-15)) with (/ 32768); lra|change (/ 4) with (bpow radix2 (-2)); apply bpow_le; lia]. Qed.
Lemma ok_inj {A} (x y : A) : @Ok A x = Ok y -> x = y. Proof. intros [= H]. exact H. Qed.
Lemma corner_vectors : fvector false c74_boxes (q2d 3 2) (q2d 2 2) = Ok [of_dyadic (-1) (-2); B754_zero false] /\ fvector false c74_boxes (q2d 2 3) (q2d 2 2) = Ok [B754_zero false; of_dyadic (-1) (-2)].
Proof. assert (A : fsub (of_dyadic 2 (-2)) (of_dyadic 3 (-2)) = of_dyadic (-1) (-2)) by (apply B2SF_inj; vm_compute; reflexivity). assert (B : fsub (of_dyadic 2 (-2)) (of_dyadic 2 (-2)) = B754_zero false) by (apply B2SF_inj; vm_compute; reflexivity).
  split; [exact (f_equal2 (fun x y : double => Ok [x; y]) A B)|exact (f_equal2 (fun x y : double => Ok [x; y]) B A)]. Qed.
Theorem C74_hypotheses_met : dim_setting dim_fenv false c74_boxes c73_fs 1 c74_corner /\
  exists c p, In c (fcreate_clusters (fe_order dim_fenv) (fe_edges dim_fenv) false c74_boxes c73_fs c74_corner) /\ In p (g_nodes c) /\ (length (neighbors c p) = 2)%nat /\
    accurate_svds (fe_svd dim_fenv) false c74_boxes (neighbors c p) p /\ fget_dimension dim_fenv false c74_boxes c73_fs c p 3 (Some 10%nat) = Ok 2%nat.
Proof. pose proof corner_setting as St. split; [exact St|]. destruct St as (_ & _ & GC & _).
  set (cl := fcreate_clusters (fe_order dim_fenv) (fe_edges dim_fenv) false c74_boxes c73_fs c74_corner). assert (Lc : (length cl =? 1)%nat = true) by (vm_compute; reflexivity). assert (Ic : forall c, In c cl -> In c (fcreate_clusters (fe_order dim_fenv) (fe_edges dim_fenv) false c74_boxes c73_fs c74_corner)) by exact (fun c H => H).
  assert (Nd : forallb (fun c => existsb (eqb (q2d 2 2)) (g_nodes c)) cl = true) by (vm_compute; reflexivity). assert (Nb : forallb (fun c => length (neighbors c (q2d 2 2)) =? 2)%nat cl = true) by (vm_compute; reflexivity).
  assert (Dm : forallb (fun c => match fget_dimension dim_fenv false c74_boxes c73_fs c (q2d 2 2) 3 (Some 10%nat) with Ok 2%nat => true | _ => false end) cl = true) by (vm_compute; reflexivity).
  clearbody cl. destruct cl as [|c [|? ?]]; try discriminate Lc. exists c, (q2d 2 2). specialize (Ic c (or_introl eq_refl)). cbn [forallb] in Nd, Nb, Dm. rewrite andb_true_r in Nd, Nb, Dm. split; [left; reflexivity|]. assert (Ip : In (q2d 2 2) (g_nodes c)) by (apply existsb_exists in Nd as (x & Ix & Ex); unfold eqb in Ex; destruct (eq_dec (q2d 2 2) x) as [->|]; [exact Ix|discriminate Ex]). split; [exact Ip|]. split; [apply Nat.eqb_eq; exact Nb|]. split; [|destruct (fget_dimension _ _ _ _ _ _ _ _) as [[|[|[|]]]|]; try discriminate Dm; reflexivity].
  assert (HO : any_order (fe_order dim_fenv)) by (intros l0; apply Permutation_refl). assert (EO : any_order (fe_edges dim_fenv)) by (intros l0; apply Permutation_refl). pose proof (gc_finite c74_boxes c73_fs c74_corner GC) as Pf.
  pose proof (C69_partition (fe_order dim_fenv) (fe_edges dim_fenv) false c74_boxes c73_fs c74_corner HO EO GC) as (_ & _ & Pos & _). pose proof (fcluster_wf (fe_order dim_fenv) (fe_edges dim_fenv) false c74_boxes c73_fs c74_corner HO EO Pf c Ic) as W.
  assert (Nq : forall q, In q (neighbors c (q2d 2 2)) -> q = q2d 3 2 \/ q = q2d 2 3).
  { intros q Iq. apply in_neighbors in Iq. destruct (wf_ends W Iq) as (_ & Iq'). destruct (Pos c q Ic Iq') as [E|[E|[E|[]]]]; [exfalso|left; exact (eq_sym E)|right; exact (eq_sym E)]. rewrite <- E in Iq. apply (fcluster_edges (fe_order dim_fenv) (fe_edges dim_fenv) false c74_boxes c73_fs c74_corner HO EO Pf c _ _ Ic Ip) in Iq. pose proof (fus_nodup (fe_order dim_fenv) c74_corner HO Pf) as Nu. destruct Iq as [(B & _)|(B & _)]; exact (before_neq _ _ _ Nu B eq_refl). }
  intros t vs N I (L2 & L3) Lb V. cbn [length c74_boxes] in Lb. destruct t as [|a [|b [|]]]; cbn [length] in *; try lia. inversion V as [|? v ? l E1 V' X1 X2]. subst. inversion V' as [|? w ? l' E2 V'' X1 X2]. subst. inversion V''. subst.
  assert (Ne : a <> b) by (intros ->; inversion N as [|? ? X _]; apply X; left; reflexivity). destruct corner_vectors as (C1 & C2). assert (Fd : Forall (fun x : double => fin x /\ Rabs (val x) <= pw 400) [of_dyadic (-1) (-2); B754_zero false]).
  { destruct (of_dyadic_val (-1) (-2) ltac:(lia) ltac:(lia)) as (F & Vl). constructor; [|constructor; [|constructor]]; (split; [try exact F; reflexivity|]). - rewrite Vl. change (bpow radix2 (-2)) with (/ 4). apply Rle_trans with (pw 0); [change (pw 0) with 1; apply Rabs_le; lra|apply pw_le; lia]. - cbn [B2R]. rewrite Rabs_R0. left. apply pw_pos. }
  assert (Fd' : Forall (fun x : double => fin x /\ Rabs (val x) <= pw 400) [B754_zero false; of_dyadic (-1) (-2)]) by (constructor; [exact (Forall_inv (Forall_inv_tail Fd))|constructor; [exact (Forall_inv Fd)|constructor]]).
  destruct (Nq a (I a (or_introl eq_refl))) as [-> | -> ], (Nq b (I b (or_intror (or_introl eq_refl)))) as [-> | -> ].
  - elim Ne. reflexivity.
  - rewrite C1 in E1. rewrite C2 in E2. apply ok_inj in E1, E2. rewrite <- E1, <- E2. apply (svd_perpendicular _ _ 2); [cbn; lia|reflexivity|reflexivity|exact Fd|exact Fd'|cbn [place map rdot B2R]; ring].
  - rewrite C2 in E1. rewrite C1 in E2. apply ok_inj in E1, E2. rewrite <- E1, <- E2. apply (svd_perpendicular _ _ 2); [cbn; lia|reflexivity|reflexivity|exact Fd'|exact Fd|cbn [place map rdot B2R]; ring].
  - elim Ne. reflexivity. Qed.
Print Assumptions C74_hypotheses_met.
