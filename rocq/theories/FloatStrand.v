(** Positions along a line: few of them are near to one of them (for C77). *)
From Coq Require Import ZArith Reals Psatz List.
From Flocq Require Import Core BinarySingleNaN.
From Verif Require Import Base BaseFacts CoordSysR Float FloatFacts FloatVector FloatMin FloatCell SpecFloatCell FloatCellNum FloatCluster SpecFloatCluster FloatClusterFacts FloatIdentify SpecFloatIdentify FloatAverage SpecFloatDim VolumeReal FloatDimFacts.
From Coq Require Import Lra.
Import ListNotations.
Open Scope list_scope.
Open Scope R_scope.

(** the shortest image *)
Lemma nearest t s : 0 < s -> exists k, forall k', (t - IZR k * s) ^ 2 <= (t - IZR k' * s) ^ 2.
Proof. intros S. exists (Zfloor (t / s + / 2)). intros k'. set (k := Zfloor (t / s + / 2)). pose proof (Zfloor_lb (t / s + / 2)) as A. pose proof (Zfloor_ub (t / s + / 2)) as B. fold k in A, B.
  set (w := t / s) in *. assert (Et : t = w * s) by (unfold w; field; lra). rewrite Et. replace (w * s - IZR k * s) with ((w - IZR k) * s) by ring. replace (w * s - IZR k' * s) with ((w - IZR k') * s) by ring. rewrite !Rpow_mult_distr. apply Rmult_le_compat_r; [nra|].
  destruct (Z.lt_trichotomy k' k) as [L|[->|L]]; [|lra|].
  - assert (IZR k' + 1 <= IZR k) by (rewrite <- plus_IZR; apply IZR_le; lia). nra.
  - assert (IZR k + 1 <= IZR k') by (rewrite <- plus_IZR; apply IZR_le; lia). nra. Qed.
Lemma best_image : forall boxes p q, Forall (fun b => 0 < fbox_size b) boxes -> exists ks, length ks = length boxes /\ forall ks', length ks' = length boxes -> image_dist_sq boxes p q ks <= image_dist_sq boxes p q ks'.
Proof. induction boxes as [|b boxes IH]; intros p q F; [exists []; split; [reflexivity|intros; apply Rle_refl]|]. pose proof (Forall_inv F) as Sb. pose proof (Forall_inv_tail F) as F'. destruct p as [|x p].
  { exists (repeat 0%Z (S (length boxes))). split; [apply repeat_length|]. intros; apply Rle_refl. }
  destruct q as [|y q]. { exists (repeat 0%Z (S (length boxes))). split; [apply repeat_length|]. intros; apply Rle_refl. }
  destruct (IH p q F') as (ks & L & Min). destruct (nearest (B2R x - B2R y) (fbox_size b) Sb) as (k & Hk). exists (k :: ks). split; [cbn; congruence|]. intros [|k' ks'] L'; [discriminate|]. cbn [image_dist_sq]. apply Rplus_le_compat; [apply Hk|apply Min; cbn in L'; congruence]. Qed.
Lemma diff_squares : forall boxes p q ks, fold_right Rplus 0 (map (fun x => x ^ 2) (image_diff boxes (place p) (place q) ks)) = image_dist_sq boxes p q ks.
Proof. induction boxes as [|b boxes IH]; intros [|x p] [|y q] [|k ks]; try reflexivity. cbn [place map image_diff fold_right image_dist_sq]. rewrite <- IH. reflexivity. Qed.
Lemma squares_nonneg : forall boxes p q ks, 0 <= image_dist_sq boxes p q ks.
Proof. induction boxes as [|b boxes IH]; intros [|x p] [|y q] [|k ks]; cbn [image_dist_sq]; try lra. specialize (IH p q ks). pose proof (pow2_ge_0 (B2R x - B2R y - IZR k * fbox_size b)). lra. Qed.
Lemma lead_exists per boxes p q : Forall (fun b => 0 < fbox_size b) boxes -> exists v, leads per boxes p q v.
Proof. intros F. assert (T : 0 <= total_size boxes) by (unfold total_size; clear - F; induction F as [|b l H F IH]; cbn [map fold_right]; lra). pose proof (bpow_gt_0 radix2 (-38)) as P.
  assert (K : exists ks, length ks = length boxes /\ (per = false -> Forall (fun k => k = 0%Z) ks) /\ forall ks', length ks' = length boxes -> (per = false -> Forall (fun k => k = 0%Z) ks') -> image_dist_sq boxes p q ks <= image_dist_sq boxes p q ks').
  { destruct per; [destruct (best_image boxes p q F) as (ks & L & H); exists ks; split; auto; split; [discriminate|auto]|]. exists (map (fun _ => 0%Z) boxes). split; [apply map_length|]. split; [intros _; clear; induction boxes; constructor; auto|].
    intros ks' L Z. specialize (Z eq_refl). apply Req_le. f_equal. clear - L Z. revert ks' L Z. induction boxes as [|b boxes IH]; intros [|k ks] L Z; try discriminate; auto. cbn [map]. f_equal; [symmetry; exact (Forall_inv Z)|apply IH; [cbn in L; congruence|exact (Forall_inv_tail Z)]]. }
  destruct K as (ks & L & Z & Min). exists (image_diff boxes (place p) (place q) ks). split; [exists ks; auto|]. intros d D (ks' & L' & Z' & W). unfold rlength. rewrite diff_squares. apply Rle_trans with d; [|nra].
  apply Rle_trans with (sqrt (d ^ 2)); [apply sqrt_le_1_alt; eapply Rle_trans; [apply Min; eauto|exact W]|]. rewrite sqrt_pow2; lra. Qed.
(** two images of two positions, seen from a third one *)
Lemma between : forall boxes x y z k1 k2, length x = length boxes -> length y = length boxes -> length z = length boxes -> length k1 = length boxes -> length k2 = length boxes ->
  exists ks, length ks = length boxes /\ (Forall (fun k => k = 0%Z) k1 -> Forall (fun k => k = 0%Z) k2 -> Forall (fun k => k = 0%Z) ks) /\
  rsub (image_diff boxes (place x) (place y) k1) (image_diff boxes (place x) (place z) k2) = image_diff boxes (place z) (place y) ks.
Proof. induction boxes as [|b boxes IH]; intros [|x0 x] [|y0 y] [|z0 z] [|a k1] [|c k2] L1 L2 L3 L4 L5; try discriminate; [exists []; repeat split; auto|].
  destruct (IH x y z k1 k2) as (ks & L & Z & E); try (cbn in *; congruence). exists ((a - c)%Z :: ks). split; [cbn; congruence|]. split.
  - intros F1 F2. constructor; [rewrite (Forall_inv F1), (Forall_inv F2); reflexivity|]. apply Z; [exact (Forall_inv_tail F1)|exact (Forall_inv_tail F2)].
  - cbn [place map image_diff]. unfold rsub in *. cbn [map radd]. unfold place in E. rewrite E. f_equal. rewrite minus_IZR. ring. Qed.

(** numbers that keep their distance in an interval *)
Lemma packed (l : list R) N : (forall i j a b, nth_error l i = Some a -> nth_error l j = Some b -> i <> j -> 1 <= Rabs (a - b)) -> Forall (fun a => Rabs a <= INR N) l -> (length l <= 2 * N + 2)%nat.
Proof. intros Sep B. rewrite <- (map_length Zfloor l).
  set (range := map (fun i => (Z.of_nat i - Z.of_nat N - 1)%Z) (seq 0 (2 * N + 2))). replace (2 * N + 2)%nat with (length range) by (unfold range; rewrite map_length, seq_length; reflexivity). apply NoDup_incl_length.
  - apply NoDup_nth_error. intros i j Hi E. destruct (Nat.eq_dec i j) as [|Ne]; auto. exfalso. rewrite map_length in Hi. rewrite !nth_error_map in E. destruct (nth_error l i) as [a|] eqn:Ea; [|apply nth_error_Some in Hi; congruence]. destruct (nth_error l j) as [b|] eqn:Eb; [|discriminate]. cbn in E. injection E as E.
    pose proof (Sep i j a b Ea Eb Ne) as S. pose proof (Zfloor_lb a). pose proof (Zfloor_ub a). pose proof (Zfloor_lb b). pose proof (Zfloor_ub b). rewrite E in *. unfold Rabs in S. destruct (Rcase_abs _); lra.
  - intros z Iz. apply in_map_iff in Iz as (a & <- & Ia). rewrite Forall_forall in B. specialize (B a Ia). apply Rabs_le_inv in B. rewrite INR_IZR_INZ in B. pose proof (Zfloor_lb a). pose proof (Zfloor_ub a).
    assert (L1 : (- Z.of_nat N - 1 < Zfloor a)%Z) by (apply lt_IZR; rewrite minus_IZR, opp_IZR; lra). assert (L2 : (Zfloor a <= Z.of_nat N)%Z) by (apply le_IZR; lra).
    unfold range. apply in_map_iff. exists (Z.to_nat (Zfloor a + Z.of_nat N + 1)). split; [lia|]. apply in_seq. lia. Qed.

(** Positions that are further than [D] apart, and that are led to from [x] by vectors of at most
    [L] within [h] of a line: if [D - 2 h] is at least a 49th of [L + h], not more than 100. *)
Lemma along_line per boxes x u h L D l : Forall (fun b => 0 < fbox_size b) boxes -> length x = length boxes -> length u = length boxes -> (forall y, In y l -> length y = length boxes) -> 0 <= h -> 0 <= D -> 0 < D - 2 * h -> L + h <= 49 * (D - 2 * h) ->
  (forall i j y z, nth_error l i = Some y -> nth_error l j = Some z -> i <> j -> ~ within_dist per boxes y z D) ->
  (forall y v, In y l -> leads per boxes x y v -> near_span [u] h v /\ rlength v <= L) -> (length l <= 100)%nat.
Proof. intros F Lx Lu Ll H0 D0 S0 LD Far Nr. set (s := D - 2 * h) in *.
  destruct (choose_list (fun y a => exists v e, leads per boxes x y v /\ length e = length boxes /\ v = radd e (map (Rmult a) u) /\ rlength e <= h /\ rlength v <= L) l) as (m & Em & Hm).
  { intros y Iy. destruct (lead_exists per boxes x y F) as (v & Lv). destruct (Nr y v Iy Lv) as ((cs & e & Lc & Le & Ev & He) & Hv). destruct cs as [|a [|]]; try discriminate. exists a, v, e. split; auto. split; [|auto].
    rewrite Le. destruct Lv as ((ks & Lk & _ & ->) & _). apply image_diff_length; auto; unfold place; rewrite map_length; auto. }
  assert (Lm : length l = length (map (fun q => snd q * rlength u / s) m)) by (rewrite map_length, <- Em, map_length; reflexivity). rewrite Lm. change 100%nat with (2 * 49 + 2)%nat. apply packed.
  - intros i j a b Ea Eb Ne. rewrite nth_error_map in Ea, Eb. destruct (nth_error m i) as [(y & ay)|] eqn:Ey; [|discriminate]. destruct (nth_error m j) as [(z & az)|] eqn:Ez; [|discriminate]. cbn [option_map snd] in Ea, Eb. injection Ea as <-. injection Eb as <-.
    assert (Iy : nth_error l i = Some y) by (rewrite <- Em, nth_error_map, Ey; reflexivity). assert (Iz : nth_error l j = Some z) by (rewrite <- Em, nth_error_map, Ez; reflexivity).
    destruct (Hm _ (nth_error_In _ _ Ey)) as (v & e & ((k1 & K1 & Z1 & E1) & _) & Le & Ev & He & _). destruct (Hm _ (nth_error_In _ _ Ez)) as (w & e' & ((k2 & K2 & Z2 & E2) & _) & Le' & Ew & He' & _). cbn [fst snd] in *.
    pose proof (Ll y (nth_error_In _ _ Iy)) as Ly. pose proof (Ll z (nth_error_In _ _ Iz)) as Lz. destruct (between boxes x y z k1 k2 Lx Ly Lz K1 K2) as (ks & Lk & Zk & Eb). rewrite <- E1, <- E2 in Eb.
    assert (Big : D < rlength (rsub v w)). { apply Rnot_le_lt. intros Le0. apply (Far j i z y Iz Iy (not_eq_sym Ne)). exists ks. split; auto. split; [intros P; apply Zk; auto|]. rewrite <- diff_squares, <- Eb. fold (rlength (rsub v w)) in *.
      unfold rlength in Le0. set (q := fold_right Rplus 0 (map (fun x0 => x0 ^ 2) (rsub v w))) in *. destruct (Rle_or_lt q 0) as [|Q]; [nra|]. rewrite <- (sqrt_sqrt q) by lra. pose proof (sqrt_pos q). nra. }
    assert (Es : rsub v w = radd (rsub e e') (map (Rmult (ay - az)) u)).
    { rewrite Ev, Ew. unfold rsub. clear - Le Le' Lu. revert e' u Le' Lu Le. generalize (length boxes). intros n. revert n. induction e as [|a e IH]; intros n [|a' e'] [|c u] Le' Lu Le; cbn in *; try congruence. f_equal; [ring|]. apply (IH (Nat.pred n)); cbn in *; lia. }
    assert (Bd : rlength (rsub v w) <= 2 * h + Rabs (ay - az) * rlength u).
    { rewrite Es. eapply Rle_trans; [apply rlen_add; rewrite map_length; rewrite rsub_length; congruence|]. rewrite rlen_scale. apply Rplus_le_compat_r. unfold rsub. eapply Rle_trans; [apply rlen_add; rewrite map_length; congruence|]. rewrite rlen_scale. replace (Rabs (-1)) with 1 by (rewrite Rabs_left; lra). lra. }
    replace (ay * rlength u / s - az * rlength u / s) with ((ay - az) * (rlength u / s)) by (field; lra). rewrite Rabs_mult. pose proof (rlen_pos u) as Up. rewrite (Rabs_pos_eq (rlength u / s)) by (apply Rmult_le_pos; [exact Up|left; apply Rinv_0_lt_compat; exact S0]).
    apply (Rmult_le_reg_r s); [exact S0|]. replace (Rabs (ay - az) * (rlength u / s) * s) with (Rabs (ay - az) * rlength u) by (field; lra). unfold s. lra.
  - apply Forall_forall. intros a Ia. apply in_map_iff in Ia as (q & <- & Iq). destruct (Hm q Iq) as (v & e & _ & Le & Ev & He & Hv). pose proof (part_bound e (map (Rmult (snd q)) u) ltac:(rewrite map_length; congruence)) as Pb. rewrite <- Ev, rlen_scale in Pb. pose proof (rlen_pos u) as Up.
    unfold Rdiv. rewrite !Rabs_mult, (Rabs_pos_eq (rlength u)) by exact Up. rewrite (Rabs_pos_eq (/ s)) by (left; apply Rinv_0_lt_compat; exact S0). apply (Rmult_le_reg_r s); [exact S0|]. rewrite Rmult_assoc, Rinv_l, Rmult_1_r by lra. replace (INR 49) with 49 by (rewrite INR_IZR_INZ; reflexivity). lra. Qed.
