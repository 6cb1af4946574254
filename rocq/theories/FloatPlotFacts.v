(** Facts about plots in double precision (C79). *)
From Coq Require Import ZArith Reals Psatz List.
From Flocq Require Import Core BinarySingleNaN Mult_error.
From Verif Require Import Base BaseFacts CoordSys Graph SpecGraph GraphFacts SpecCluster Plot SpecPlot PlotFacts Float FloatFacts FloatVector FloatVectorFacts FloatMin FloatStepFacts FloatCell SpecFloatCell FloatCellNum FloatDistNum FloatEdge FloatController FloatIdentify SpecFloatIdentify FloatPlot SpecFloatPlot.
From Coq Require Import Lra.
Import ListNotations.
Open Scope list_scope.
Open Scope R_scope.

Lemma abs_inj (a b : double) : fin a -> fin b -> Rabs (val a) = Rabs (val b) -> Babs a = Babs b.
Proof. intros Fa Fb E. apply B2R_Bsign_inj.
  - rewrite is_finite_Babs. exact Fa.
  - rewrite is_finite_Babs. exact Fb.
  - rewrite !B2R_Babs. exact E.
  - rewrite !Bsign_Babs; auto; destruct a, b; auto; discriminate. Qed.
Lemma inf_abs (a : double) s : B2SF a = SpecFloat.S754_infinity s -> Babs a = B754_infinity false.
Proof. destruct a; cbn; intros E; try discriminate; reflexivity. Qed.
Lemma sub_abs_sym (x y : double) : Babs (fsub x y) = Babs (fsub y x).
Proof. destruct (is_finite x) eqn:Fx; [destruct (is_finite y) eqn:Fy|].
  - pose proof (Bminus_correct 53 1024 _ _ mode_NE x y Fx Fy) as A. pose proof (Bminus_correct 53 1024 _ _ mode_NE y x Fy Fx) as B.
    assert (E : round radix2 FE (round_mode mode_NE) (val x - val y) = - round radix2 FE (round_mode mode_NE) (val y - val x)) by (rewrite <- round_NE_opp; f_equal; ring).
    rewrite E, Rabs_Ropp in A. destruct (Rlt_bool _ _).
    + destruct A as (A1 & A2 & _). destruct B as (B1 & B2 & _). apply abs_inj; [exact A2|exact B2|]. unfold fsub. rewrite A1, B1, Rabs_Ropp. reflexivity.
    + destruct A as (A1 & _). destruct B as (B1 & _). unfold fsub. rewrite (inf_abs _ _ A1), (inf_abs _ _ B1). reflexivity.
  - destruct x, y; try discriminate; try reflexivity; repeat match goal with b : bool |- _ => destruct b end; reflexivity.
  - destruct x, y; try discriminate; try reflexivity; repeat match goal with b : bool |- _ => destruct b end; reflexivity. Qed.
Lemma map2_abs_sym (u : list double) : forall v, map Babs (map2 fsub u v) = map Babs (map2 fsub v u).
Proof. induction u as [|x u IH]; intros [|y v]; cbn; auto. rewrite sub_abs_sym, IH. reflexivity. Qed.

(** the norm of the model of distances is such a norm *)
Lemma mul_abs (x y : double) : Babs x = Babs y -> fmul x x = fmul y y.
Proof. intros E. destruct x, y; cbn in E; try discriminate; try (repeat match goal with b : bool |- _ => destruct b end; reflexivity).
  injection E as <- <-. apply B2SF_inj. unfold fmul, Bmult. rewrite !B2SF_SF2B. destruct s, s0; reflexivity. Qed.
Lemma sumsq_rlength v : sqrt (sumsq v) = rlength (map val v).
Proof. unfold rlength, sumsq, rsum. f_equal. rewrite map_map. f_equal. apply map_ext. intros x. ring. Qed.
Lemma fnorm_good : good_norm fnorm.
Proof. split.
  - intros v w E. unfold fnorm. f_equal. f_equal. revert w E. induction v as [|x v IH]; intros [|y w] E; try discriminate; auto. cbn in *. injection E as E1 E2. rewrite (mul_abs x y E1), (IH w E2). reflexivity.
  - intros v L F. destruct (norm_accurate v L) as (A & _ & B). { eapply Forall_impl; [|exact F]. intros x (Fx & Bx). split; auto. eapply Rle_trans; [exact Bx|]. apply pw_le. lia. }
    split; auto. rewrite <- sumsq_rlength. eapply Rle_trans; [exact B|]. apply Rplus_le_compat_r. apply Rmult_le_compat_r; [apply sqrt_pos|]. apply pw_le. lia. Qed.

Section Plot.
  Variable norm : list double -> double.
  Hypothesis GN : good_norm norm.
  Lemma flonger_sym fs u v : flonger_than norm fs u v = flonger_than norm fs v u.
  Proof. destruct fs as [f|]; cbn; auto. f_equal. apply (proj1 GN). apply map2_abs_sym. Qed.

  Lemma straight_nonneg u v : 0 <= straight u v.
  Proof. apply sqrt_pos. Qed.
  Lemma rlength_scaled (a b : list R) e : 0 <= e -> Forall2 (fun x y => Rabs x <= (1 + e) * Rabs y) a b -> rlength a <= (1 + e) * rlength b.
  Proof. intros He H. unfold rlength. rewrite <- (sqrt_pow2 (1 + e)) at 1 by lra. rewrite <- sqrt_mult_alt by apply pow2_ge_0. apply sqrt_le_1_alt. induction H as [|x y a b Hx F IH]; cbn; [lra|].
    assert (X : x ^ 2 <= (1 + e) ^ 2 * y ^ 2); [|cbn [pow] in *; lra]. rewrite <- (pow2_abs x), <- (pow2_abs y), <- Rpow_mult_distr. apply pow_incr. split; [apply Rabs_pos|exact Hx]. Qed.
  Lemma subs_close dim : forall u v, plottable dim u -> plottable dim v ->
    length (map2 fsub u v) = dim /\ Forall (fun x => is_finite x = true /\ Rabs (B2R x) <= pw 402) (map2 fsub u v) /\
    Forall2 (fun x y => Rabs x <= (1 + pw (-50)) * Rabs y) (map B2R (map2 fsub u v)) (map2 Rminus (place u) (place v)) /\
    Forall2 (fun x y => Rabs x <= (1 + pw (-50)) * Rabs y) (map2 Rminus (place u) (place v)) (map B2R (map2 fsub u v)).
  Proof. induction dim as [|dim IH]; intros u v (Lu & Hu) (Lv & Hv); destruct u as [|x u], v as [|y v]; try discriminate; [repeat split; constructor|]. change (place (x :: u)) with (B2R x :: place u). change (place (y :: v)) with (B2R y :: place v). cbn [map2 map length].
    injection Lu as Lu. injection Lv as Lv. inversion Hu as [|? ? (Fx & Bx) Hu']; subst. inversion Hv as [|? ? (Fy & By) Hv']; subst. destruct (IH u v) as (L & F & A & B); [split; auto|split; auto|].
    assert (Bd : Rabs (val x - val y) <= pw 401) by (replace (pw 401) with (2 * pw 400) by (change 2 with (pw 1); rewrite pw_mul; reflexivity); rewrite abs_le in *; lra).
    destruct (sub_rel x y Fx Fy) as (Fs & e & He & Ve). { eapply Rle_trans; [exact Bd|]. apply pw_le. lia. }
    assert (U : pw (-53) <= / 16) by (change (/ 16) with (pw (-4)); apply pw_le; lia). assert (U2 : 2 * pw (-53) <= pw (-50)) by (change 2 with (pw 1); rewrite pw_mul; apply pw_le; lia). apply abs_le in He.
    assert (Ab : Rabs (val (fsub x y)) = Rabs (val x - val y) * (1 + e)) by (rewrite Ve, Rabs_mult; f_equal; apply Rabs_pos_eq; lra). pose proof (Rabs_pos (val x - val y)) as P. pose proof (pw_pos (-53)) as P53.
    split; [congruence|]. split; [|split]; constructor; auto; try (cbv beta; change (B2R (fsub x y)) with (val (fsub x y)); change (B2R x) with (val x); change (B2R y) with (val y); rewrite Ab; set (d := Rabs (val x - val y)) in *; clearbody d).
    - split; [exact Fs|]. assert (G : d * (1 + e) <= pw 402); [|exact G]. replace (pw 402) with (2 * pw 401) by (change 2 with (pw 1); rewrite pw_mul; reflexivity). assert (d * (1 + e) <= d * 2) by (apply Rmult_le_compat_l; lra). lra.
    - assert (d * (1 + e) <= d * (1 + pw (-50))) by (apply Rmult_le_compat_l; lra). lra.
    - set (w := pw (-50)) in *. set (z := pw (-53)) in *. assert (1 <= (1 + w) * (1 + e)) by nra. nra. Qed.

  (** the computed length, compared with twice the feature size *)
  Lemma flonger_exact (dim : nat) (fs : double) u v : (dim <= 64)%nat -> plot_size fs -> plottable dim u -> plottable dim v ->
    (flonger_than norm (Some fs) u v = false -> straight u v <= 2 * val fs * (1 + pw (-40))) /\
    (straight u v <= 2 * val fs * (1 - pw (-40)) -> flonger_than norm (Some fs) u v = false).
  Proof. intros Ld (Ff & Lf & Uf) Pu Pv. destruct (subs_close dim u v Pu Pv) as (L & F & A & B). cbn [flonger_than].
    destruct (proj2 GN (map2 fsub u v) (eq_ind_r (fun n => (n <= 64)%nat) Ld L) F) as (Fn & En). set (N := norm _) in *. set (l := rlength (map B2R (map2 fsub u v))) in *.
    pose proof (rlength_scaled _ _ (pw (-50)) (Rlt_le _ _ (pw_pos _)) A) as A'. pose proof (rlength_scaled _ _ (pw (-50)) (Rlt_le _ _ (pw_pos _)) B) as B'. fold l in A', B'. fold (straight u v) in A', B'.
    destruct const_vals as (_ & (F2 & V2) & _).
    assert (Ex : fin (fmul dtwo fs) /\ val (fmul dtwo fs) = 2 * val fs).
    { destruct (fmul_val dtwo fs 1001 ltac:(lia) F2 Ff) as (Fm & Vm).
      - rewrite V2, Rabs_pos_eq; [|pose proof (pw_pos (-400)); lra]. replace (pw 1001) with (2 * pw 1000) by (change 2 with (pw 1); rewrite pw_mul; reflexivity). lra.
      - split; auto. rewrite Vm, V2. apply rnd_id. rewrite FE_flt. replace (2 * val fs) with (val fs * pw 1) by (change (pw 1) with 2; ring). apply mult_bpow_pos_exact_FLT; [|lia]. rewrite <- FE_flt. apply val_format. }
    destruct Ex as (Fm & Vm). unfold flt. rewrite Bltb_correct by auto. rewrite Vm.
    assert (S0 := straight_nonneg u v). assert (l0 : 0 <= l) by apply sqrt_pos. clearbody l N. set (S := straight u v) in *. clearbody S. clear A B F. apply abs_le in En.
    assert (T : pw (-500) <= pw (-42) * val fs). { eapply Rle_trans; [|apply Rmult_le_compat_l; [left; apply pw_pos|exact Lf]]. rewrite pw_mul. apply pw_le. lia. }
    assert (U : pw (-42) <= / 1048576) by (change (/ 1048576) with (pw (-20)); apply pw_le; lia). assert (E40 : pw (-40) = 4 * pw (-42)) by (change 4 with (pw 2); rewrite pw_mul; reflexivity).
    assert (E50 : pw (-50) <= / 256 * pw (-42)) by (change (/ 256) with (pw (-8)); rewrite pw_mul; apply pw_le; lia). pose proof (pw_pos (-42)) as P42. pose proof (pw_pos (-50)) as P50. pose proof (pw_pos (-400)) as P400. rewrite E40. set (w := pw (-42)) in *. set (z := pw (-50)) in *. set (t := pw (-500)) in *. set (f := val fs) in *. assert (f0 : 0 < f) by lra.
    assert (z * S <= / 256 * w * S) by (apply Rmult_le_compat_r; lra). assert (z * l <= / 256 * w * l) by (apply Rmult_le_compat_r; lra). assert (Wl : 0 <= w * l) by (apply Rmult_le_pos; lra). assert (WS : 0 <= w * S) by (apply Rmult_le_pos; lra). assert (Wf : 0 <= w * f) by (apply Rmult_le_pos; lra).
    clearbody w z t f. clear Lf Uf P400.
    split.
    - intros Hy. destruct (Rlt_bool_spec (2 * f) (B2R N)) as [|Q]; [discriminate|]. assert (l * (1 - w) <= 2 * f + w * f) by lra.
      assert (l <= (2 * f + w * f) * (1 + 2 * w)). { assert (1 <= (1 - w) * (1 + 2 * w)) by nra. assert (l <= l * ((1 - w) * (1 + 2 * w))) by nra. assert (l * (1 - w) * (1 + 2 * w) <= (2 * f + w * f) * (1 + 2 * w)) by (apply Rmult_le_compat_r; lra). lra. }
      assert (w * (w * f) <= / 1048576 * (w * f)) by (apply Rmult_le_compat_r; lra). assert (w * l <= w * (3 * f)) by (apply Rmult_le_compat_l; [lra|nra]). lra.
    - intros Hy. apply Rlt_bool_false. assert (w * l <= / 1048576 * l) by (apply Rmult_le_compat_r; lra). assert (w * (w * f) <= / 1048576 * (w * f)) by (apply Rmult_le_compat_r; lra). assert (w * S <= w * (2 * f)) by (apply Rmult_le_compat_l; [lra|nra]). assert (l <= 3 * f) by lra. assert (w * l <= w * l) by lra.
      assert (l <= 2 * f - 8 * (w * f) + / 256 * (w * (2 * f))) by nra. assert (w * l <= w * (2 * f + w * f)) by (apply Rmult_le_compat_l; lra). lra. Qed.

  Lemma fpaths_spec norder fs (g : graph (list double) unit) : (forall h u, any_order (norder h u)) -> wf_graph g ->
    exists paths, fget_graph_paths norm norder fs g = Ok paths /\ (paths = [] <-> g_edges g = []) /\ Forall (fun p => p <> []) paths /\
      (forall x, In x (concat paths) -> exists y, has_edge g x y) /\
      (forall u v, has_edge g u v -> flonger_than norm fs u v = false -> times_drawn u v paths = 1%nat) /\
      (forall u v, times_drawn u v paths <> 0%nat -> times_drawn u v paths = 1%nat /\ has_edge g u v /\ flonger_than norm fs u v = false).
  Proof. intros NO Wf. destruct (paths_spec norder NO (flonger_than norm fs) (flonger_sym fs) g Wf) as (paths & R & Em & Ne & Nd & T). exists paths. repeat (split; [assumption|]). split.
    - intros u v E S. rewrite T. unfold open_edge. rewrite (proj2 (adj_spec g u v) E), S. reflexivity.
    - intros u v. rewrite T. unfold open_edge. destruct (adj g u v) eqn:E; cbn; [|congruence]. destruct (flonger_than norm fs u v) eqn:L; cbn; [congruence|]. intros _. split; auto. split; auto. apply adj_spec; auto. Qed.
End Plot.

(** ** Edges across the boundary *)
Lemma abs_le_of_sq x d : 0 <= d -> x ^ 2 <= d ^ 2 -> Rabs x <= d.
Proof. intros D E. rewrite <- (Rabs_pos_eq d D). apply Rsqr_le_abs_0. unfold Rsqr. lra. Qed.
Definition diff_sq (u v : list double) : R := fold_right Rplus 0 (map (fun x => x ^ 2) (map2 Rminus (place u) (place v))).
Lemma diff_sq_cons x u y v : diff_sq (x :: u) (y :: v) = (val x - val y) ^ 2 + diff_sq u v.
Proof. reflexivity. Qed.
Lemma diff_sq_nonneg u : forall v, 0 <= diff_sq u v.
Proof. induction u as [|x u IH]; intros [|y v]; try (unfold diff_sq; cbn; lra). rewrite diff_sq_cons. specialize (IH v). pose proof (pow2_ge_0 (val x - val y)). lra. Qed.
Lemma image_dist_nonneg boxes : forall u v ks, 0 <= image_dist_sq boxes u v ks.
Proof. induction boxes as [|b boxes IH]; intros [|x u] [|y v] [|k ks]; cbn [image_dist_sq]; try lra. specialize (IH u v ks). pose proof (pow2_ge_0 (val x - val y - IZR k * fbox_size b)). lra. Qed.
Lemma image_direct (D d : R) boxes : 0 <= D -> 0 <= d -> Forall (fun b => D + d < fbox_size b) boxes -> forall u v ks, length u = length boxes -> length v = length boxes -> length ks = length boxes ->
  image_dist_sq boxes u v ks <= d ^ 2 -> diff_sq u v <= D ^ 2 -> diff_sq u v = image_dist_sq boxes u v ks.
Proof. intros HD Hd. induction 1 as [|b boxes Hb F IH]; intros [|x u] [|y v] [|k ks] Lu Lv Lk Hi Hs; try discriminate; [reflexivity|]. rewrite diff_sq_cons in *. cbn [image_dist_sq] in *. cbn [length] in *. injection Lu as Lu. injection Lv as Lv. injection Lk as Lk.
  pose proof (image_dist_nonneg boxes u v ks) as N1. pose proof (diff_sq_nonneg u v) as N2. pose proof (pow2_ge_0 (val x - val y)) as N3. pose proof (pow2_ge_0 (val x - val y - IZR k * fbox_size b)) as N4.
  change (@B2R 53 1024 x) with (val x) in *. rewrite <- (IH u v ks) in * by (auto; lra). assert (A1 : Rabs (val x - val y) <= D) by (apply abs_le_of_sq; lra). assert (A2 : Rabs (val x - val y - IZR k * fbox_size b) <= d) by (apply abs_le_of_sq; auto; lra).
  apply abs_le in A1, A2. assert (k = 0%Z) as ->; [|f_equal; f_equal; ring].
  destruct (Z.lt_trichotomy k 0) as [K|[K|K]]; auto; exfalso.
  - assert (K' : (k <= -1)%Z) by lia. apply IZR_le in K'. nra.
  - assert (K' : (1 <= k)%Z) by lia. apply IZR_le in K'. nra. Qed.
Lemma straight_zero boxes : forall u v ks, Forall (fun k => k = 0%Z) ks -> length u = length boxes -> length v = length boxes -> length ks = length boxes -> diff_sq u v = image_dist_sq boxes u v ks.
Proof. induction boxes as [|b boxes IH]; intros [|x u] [|y v] [|k ks] Z Lu Lv Lk; try discriminate; [reflexivity|]. inversion Z; subst. rewrite diff_sq_cons. cbn [image_dist_sq]. rewrite <- (IH u v ks) by (auto; cbn in *; lia). f_equal. f_equal. ring. Qed.
Lemma straight_sqrt u v : straight u v = sqrt (diff_sq u v).
Proof. reflexivity. Qed.
Lemma cut_exact norm per boxes (fs : double) d u v : good_norm norm -> (length boxes <= 64)%nat -> plot_size fs -> plottable (length boxes) u -> plottable (length boxes) v -> 0 <= d -> d <= 2 * val fs * (1 - pw (-40)) ->
  (per = true -> Forall (fun b => 2 * val fs * (1 + pw (-40)) + d < fbox_size b) boxes) -> within_dist per boxes u v d ->
  (flonger_than norm (Some fs) u v = false <-> straight u v <= d).
Proof. intros GN Lb Pf Pu Pv Hd Hd2 Sz (ks & Lk & Kz & Hi). destruct (flonger_exact norm GN (length boxes) fs u v Lb Pf Pu Pv) as (A & B). split; [|intros S; apply B; lra].
  intros E. specialize (A E). rewrite straight_sqrt in *. assert (Fp : 0 < val fs) by (destruct Pf as (_ & L & _); pose proof (pw_pos (-400)); lra). pose proof (pw_pos (-40)) as P40.
  assert (E2 : diff_sq u v = image_dist_sq boxes u v ks).
  { destruct per.
    - apply (image_direct (2 * val fs * (1 + pw (-40))) d); auto; [nra|apply Pu|apply Pv|]. rewrite <- (sqrt_sqrt (diff_sq u v)) by apply diff_sq_nonneg. pose proof (sqrt_pos (diff_sq u v)). cbn [pow]. rewrite Rmult_1_r. apply Rmult_le_compat; auto.
    - apply straight_zero; auto; [apply Pu|apply Pv]. }
  rewrite E2. rewrite <- (sqrt_pow2 d) by auto. apply sqrt_le_1_alt. exact Hi. Qed.
