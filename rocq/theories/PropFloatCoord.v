(** C78: the coordinate system in double precision. *)
From Coq Require Import ZArith Reals Psatz List.
From Flocq Require Import Core BinarySingleNaN.
From Verif Require Import Base BaseFacts CoordSys Float FloatFacts FloatVector FloatVectorFacts FloatMin FloatCell SpecFloatCell FloatCellNum FloatCellFacts PropFloatCell FloatDistNum FloatCluster SpecFloatCluster FloatClusterFacts PropFloatCluster FloatIdentify SpecFloatIdentify FloatIdentifyFacts FloatCoord SpecFloatCoord FloatCoordFacts.
From Coq Require Import Lra.
Import ListNotations.
Open Scope list_scope.
Open Scope R_scope.

(** *** Limits can be given in any order: the coordinate system has the same two numbers as its limits, the
    smaller one first, and its size is positive (it does not underflow). *)
Theorem C78_limits : forall (x y : double), is_finite x = true -> is_finite y = true -> B2R x <> B2R y -> Rabs (B2R x) <= bpow radix2 1000 -> Rabs (B2R y) <= bpow radix2 1000 ->
  let b := fsorted (x, y) in (b = (x, y) \/ b = (y, x)) /\ B2R (fst b) < B2R (snd b) /\ is_finite (fsize (fst b) (snd b)) = true /\ 0 < B2R (fsize (fst b) (snd b)) /\ fsorted (y, x) = b.
Proof. intros x y Fx Fy N Bx By. unfold fsorted. cbn [fst snd]. assert (E : forall u v : double, is_finite u = true -> is_finite v = true -> flt u v = Rlt_bool (B2R u) (B2R v)) by (intros; apply Bltb_correct; auto).
  rewrite (E y x), (E x y) by auto. destruct (Rlt_bool_spec (B2R y) (B2R x)) as [L|L]; cbn [fst snd].
  - destruct (size_val y x Fy Fx L By Bx) as (A & _ & B & _). rewrite Rlt_bool_false by lra. auto.
  - assert (L' : B2R x < B2R y) by lra. destruct (size_val x y Fx Fy L' Bx By) as (A & _ & B & _). rewrite Rlt_bool_true by lra. auto. Qed.
Print Assumptions C78_limits.

Lemma each_map (P : double * double -> double -> double -> Prop) f boxes p : Forall good_box boxes -> good_position boxes p -> (forall b x, good_box b -> good_coord b x -> P b x (f b x)) -> each P boxes p (map2 f boxes p).
Proof. intros G H F. revert G. induction H as [|b x boxes p Hx H IH]; intros G; constructor; [apply F; auto; exact (Forall_inv G)|apply IH; exact (Forall_inv_tail G)]. Qed.

(** *** normalize_position: without periodicity the position itself; with periodicity a position inside
    the box (up to rounding at the upper limit) that differs by multiples of the size, up to rounding. *)
Theorem C78_normalize : forall per boxes p, Forall good_box boxes -> good_position boxes p ->
  (per = false -> fnormalize_position per boxes p = p) /\
  (per = true -> each (fun b x z => inside b z /\ image_of b x z) boxes p (fnormalize_position per boxes p)).
Proof. intros per boxes p G H. split; intros ->.
  - unfold fnormalize_position. clear G. induction H as [|b x boxes p Hx H IH]; [reflexivity|]. cbn [map2]. rewrite IH. reflexivity.
  - apply each_map; auto. intros b x Gb Gx. apply normalize_coord; auto. Qed.
Print Assumptions C78_normalize.

(** *** get_frac and get_pos: with periodicity the fractions are between 0 and 1; making them positions
    again gives the original position up to rounding (and multiples of the size, with periodicity). *)
Theorem C78_round_trip : forall per boxes p, Forall good_box boxes -> good_position boxes p -> let f := fget_frac_position per boxes p in
  each (fun _ _ t => is_finite t = true /\ (per = true -> 0 <= B2R t <= 1)) boxes p f /\
  each (fun b x z => is_finite z = true /\ (if per then image_of b x z else close_to b x z)) boxes p (fget_pos boxes f).
Proof. intros per boxes p G H f. split.
  - apply each_map; auto. intros b x Gb Gx. destruct per; [destruct (frac_coord b Gb x Gx) as (A & B & _); auto|destruct (frac_coord_open b Gb x Gx) as (A & _); split; auto; discriminate].
  - unfold f, fget_pos, fget_frac_position. assert (E : map2 fget_pos1 boxes (map2 (fget_frac1 per) boxes p) = map2 (fun b x => fget_pos1 b (fget_frac1 per b x)) boxes p).
    { clear. revert p. induction boxes as [|b boxes IH]; intros [|x p]; cbn [map2]; auto. rewrite IH. reflexivity. }
    rewrite E. apply each_map; auto. intros b x Gb Gx. destruct per; [destruct (frac_coord b Gb x Gx) as (_ & _ & A & B); auto|destruct (frac_coord_open b Gb x Gx) as (_ & A & B); auto]. Qed.
Print Assumptions C78_round_trip.

(** *** distance is the length of the shortest connection, up to rounding. *)
Theorem C78_distance : forall per boxes p q, Forall good_box boxes -> (length boxes <= 64)%nat -> boxes <> [] -> good_position boxes p -> good_position boxes q ->
  let D := B2R (fdist per boxes p q) in is_finite (fdist per boxes p q) = true /\ 0 <= D /\
  within_dist per boxes p q (D + dist_error boxes D) /\ (forall d, 0 <= d -> within_dist per boxes p q d -> D <= d + dist_error boxes d).
Proof. intros per boxes p q G L Ne Hp Hq D. destruct (dist_accurate per boxes G L Ne q p Hq Hp) as (A & B & C & E). split; [exact A|]. split; [exact B|]. split; [apply within_sym; exact C|].
  intros d Hd W. apply E; auto. apply within_sym. exact W. Qed.
Print Assumptions C78_distance.

Lemma length_good boxes p : good_position boxes p -> length p = length boxes. Proof. induction 1; cbn; congruence. Qed.
Lemma zero_norm l : Forall (fun x => is_finite x = true /\ B2R x = 0) l -> B2R (fnorm l) = 0.
Proof. intros H. unfold fnorm. assert (K : forall l a, is_finite a = true -> B2R a = 0 -> Forall (fun x => is_finite x = true /\ B2R x = 0) l -> B2R (fold_left fadd (map (fun x => fmul x x) l) a) = 0).
  { clear. induction l as [|x l IH]; intros a Fa Va H; [exact Va|]. destruct (Forall_inv H) as (Fx & Vx). cbn [map fold_left].
    destruct (fmul_val x x 0 ltac:(lia) Fx Fx) as (Fm & Vm); [rewrite Vx, Rmult_0_l, Rabs_R0; left; apply bpow_gt_0|]. rewrite Vx, Rmult_0_l, rnd_0 in Vm.
    destruct (fadd_val a (fmul x x) 0 ltac:(lia) Fa Fm) as (Fs & Vs); [rewrite Va, Vm, Rplus_0_l, Rabs_R0; left; apply bpow_gt_0|]. rewrite Va, Vm, Rplus_0_l, rnd_0 in Vs. apply IH; auto. exact (Forall_inv_tail H). }
  specialize (K l (B754_zero false) eq_refl eq_refl H). set (t := fold_left fadd _ _) in *. clearbody t. unfold fsqrt. destruct (Bsqrt_correct 53 1024 _ _ mode_NE t) as (V & _). rewrite V, K, sqrt_0. apply round_0. apply valid_rnd_N. Qed.
Lemma zero_delta b x y : good_box b -> is_finite x = true -> is_finite y = true -> B2R x = B2R y -> is_finite (fdelta b x y) = true /\ B2R (fdelta b x y) = 0.
Proof. intros Gb Fx Fy E. destruct (size_ok b Gb) as (Fs & _ & Us). pose proof (s_pos b Gb) as Ps. unfold fdelta. set (S := fsize (fst b) (snd b)) in *.
  destruct (fsub_val y x 0 ltac:(lia) Fy Fx) as (Fd & Vd); [rewrite E, Rminus_diag_eq, Rabs_R0 by reflexivity; left; apply bpow_gt_0|]. rewrite E, Rminus_diag_eq, rnd_0 in Vd by reflexivity.
  destruct (np_mod_val (fsub y x) S Fd Fs Ps) as (Fm & Vm & _). rewrite Vd in Vm. unfold Rdiv in Vm. rewrite Rmult_0_l in Vm. change 0 with (IZR 0) in Vm at 2. rewrite Ztrunc_IZR, Rmult_0_l, Rminus_0_r, Rlt_bool_false in Vm by lra. set (d := np_mod (fsub y x) S) in *. clearbody d.
  destruct (fsub_val S d 401 ltac:(lia) Fs Fm) as (Fn & Vn); [rewrite Vm, Rminus_0_r, Rabs_pos_eq; lra|]. rewrite Vm, Rminus_0_r, rnd_id in Vn by apply val_format. unfold fmin.
  assert (N1 : is_nan (fsub S d) = false) by (destruct (fsub S d); auto; discriminate). assert (N2 : is_nan d = false) by (destruct d; auto; discriminate). rewrite N1, N2.
  unfold flt. rewrite Bltb_correct by auto. rewrite Vm, Vn, Rlt_bool_true by lra. auto. Qed.
(** *** distance is zero for the same position, symmetric, and satisfies the triangle inequality, up to rounding. *)
Theorem C78_metric : forall per boxes p q r, Forall good_box boxes -> (length boxes <= 64)%nat -> boxes <> [] -> good_position boxes p -> good_position boxes q -> good_position boxes r ->
  let D x y := B2R (fdist per boxes x y) in
  (same_place p q -> D p q = 0) /\
  D q p <= (1 + bpow radix2 (-41)) * D p q + bpow radix2 (-37) * total_size boxes /\
  D p r <= (1 + bpow radix2 (-41)) * (D p q + D q r) + bpow radix2 (-37) * total_size boxes.
Proof. intros per boxes p q r G L Ne Hp Hq Hr D. split.
  { intros S. unfold D, fdist. assert (F : forall x, good_position boxes x -> Forall (fun c => is_finite c = true) x) by (clear; intros x H; induction H as [|b c boxes x Hc H IH]; constructor; auto; apply Hc). pose proof (F p Hp) as Fp. pose proof (F q Hq) as Fq. destruct per.
    - unfold fdistance, per_coordinate. apply zero_norm. clear F D Hp Hq Hr Ne L. revert boxes G. induction S as [|x y p q E S IH]; intros [|b boxes] G; cbn [combine map]; try constructor.
      + cbn [fst snd]. apply zero_delta; auto; [exact (Forall_inv G)|exact (Forall_inv Fp)|exact (Forall_inv Fq)].
      + apply IH; [exact (Forall_inv_tail Fp)|exact (Forall_inv_tail Fq)|exact (Forall_inv_tail G)].
    - apply zero_norm. clear Hp Hq. induction S as [|x y p q E S IH]; cbn [map2]; constructor; [|apply IH; [exact (Forall_inv_tail Fp)|exact (Forall_inv_tail Fq)]].
      destruct (fsub_val y x 0 ltac:(lia) (Forall_inv Fq) (Forall_inv Fp)) as (Fd & Vd); [rewrite E, Rminus_diag_eq, Rabs_R0 by reflexivity; left; apply bpow_gt_0|]. rewrite E, Rminus_diag_eq, rnd_0 in Vd by reflexivity. auto. }
  destruct (C78_distance per boxes p q G L Ne Hp Hq) as (_ & P1 & W1 & _). destruct (C78_distance per boxes q r G L Ne Hq Hr) as (_ & P2 & W2 & _). fold (D p q) in P1, W1. fold (D q r) in P2, W2.
  pose proof (error_nonneg boxes (D p q) G P1) as E1. pose proof (error_nonneg boxes (D q r) G P2) as E2. pose proof (error_nonneg boxes 0 G (Rle_refl 0)) as E0. unfold dist_error in E0. rewrite Rmult_0_r, Rplus_0_l in E0. split.
  - destruct (C78_distance per boxes q p G L Ne Hq Hp) as (_ & _ & _ & U). specialize (U (D p q + dist_error boxes (D p q)) ltac:(lra) (within_sym _ _ _ _ _ W1)). fold (D q p) in U.
    unfold dist_error in *. change (bpow radix2 (-43)) with (/ 8796093022208) in *. change (bpow radix2 (-39)) with (/ 549755813888) in *. change (bpow radix2 (-41)) with (/ 2199023255552). change (bpow radix2 (-37)) with (/ 137438953472). lra.
  - destruct (C78_distance per boxes p r G L Ne Hp Hr) as (_ & _ & _ & U). specialize (U ((D p q + dist_error boxes (D p q)) + (D q r + dist_error boxes (D q r))) ltac:(lra)).
    assert (W : within_dist per boxes p r (D p q + dist_error boxes (D p q) + (D q r + dist_error boxes (D q r)))).
    { apply within_place_iff. apply (within_triangle per boxes (place p) (place q) (place r)); try (unfold place; rewrite map_length; apply length_good; auto); try lra; apply within_place_iff; auto. }
    specialize (U W). fold (D p r) in U.
    unfold dist_error in *. change (bpow radix2 (-43)) with (/ 8796093022208) in *. change (bpow radix2 (-39)) with (/ 549755813888) in *. change (bpow radix2 (-41)) with (/ 2199023255552). change (bpow radix2 (-37)) with (/ 137438953472). lra. Qed.
Print Assumptions C78_metric.

Lemma sum_images : forall boxes p z, each (fun b x y => exists k, Rabs (B2R y - B2R x - IZR k * fbox_size b) <= coord_error b) boxes p z -> Forall (fun b => 0 <= coord_error b) boxes ->
  exists ks, length ks = length boxes /\ image_dist_sq boxes z p ks <= (fold_right Rplus 0 (map coord_error boxes)) ^ 2 /\ 0 <= fold_right Rplus 0 (map coord_error boxes).
Proof. induction 1 as [|b x y boxes p z (k & Hk) H IH]; intros F; [exists []; cbn [image_dist_sq map fold_right]; split; [reflexivity|]; split; [apply Req_le; ring|apply Rle_refl]|].
  destruct (IH (Forall_inv_tail F)) as (ks & L & S & P). exists (k :: ks). split; [cbn; congruence|]. cbn [image_dist_sq map fold_right]. pose proof (Forall_inv F) as E. cbv beta in E. split; [|lra].
  apply abs_iff in Hk. set (t := B2R y - B2R x - IZR k * fbox_size b) in *. set (Q := fold_right Rplus 0 (map coord_error boxes)) in *. assert (t ^ 2 <= coord_error b ^ 2) by nra. nra. Qed.
(** *** distances do not depend on which periodic image is taken, up to rounding: normalising a position changes
    its distance from another one by no more than the errors of the coordinates (and of the two distances). *)
Theorem C78_images : forall boxes p q, Forall good_box boxes -> (length boxes <= 64)%nat -> boxes <> [] -> good_position boxes p -> good_position boxes q ->
  let D x y := B2R (fdist true boxes x y) in let E := fold_right Rplus 0 (map coord_error boxes) in
  good_position boxes (fnormalize_position true boxes q) /\
  D p (fnormalize_position true boxes q) <= (1 + bpow radix2 (-41)) * (D p q + E) + bpow radix2 (-37) * total_size boxes /\
  D p q <= (1 + bpow radix2 (-41)) * (D p (fnormalize_position true boxes q) + E) + bpow radix2 (-37) * total_size boxes.
Proof. intros boxes p q G L Ne Hp Hq D E. set (z := fnormalize_position true boxes q). unfold fnormalize_position in z. change (map2 (fnormalize1 true) boxes q) with z.
  assert (Hz : good_position boxes z).
  { unfold z. clear - G Hq. induction Hq as [|b x boxes q Hx Hq IH]; constructor; [|apply IH; exact (Forall_inv_tail G)]. pose proof (Forall_inv G) as Gb. apply in_box_good; auto.
    unfold fnormalize1. destruct Gb as (Fl & Fh & Ll & Bl & Bh & Ls) eqn:Eg. assert (X : bpow radix2 400 <= bpow radix2 1000) by (apply bpow_le; lia). destruct Hx as (Fx & Bx). destruct (size_ok b Gb) as (Fs & _ & Us).
    assert (Bp : Rabs (B2R x) <= bpow radix2 1000). { replace (B2R x) with ((B2R x - B2R (fst b)) + B2R (fst b)) by ring. eapply Rle_trans; [apply Rabs_triang|]. apply Rle_trans with (bpow radix2 10 * bpow radix2 401 + bpow radix2 400).
      - apply Rplus_le_compat; [|exact Bl]. eapply Rle_trans; [exact Bx|]. apply Rmult_le_compat_l; [left; apply bpow_gt_0|exact Us].
      - rewrite <- bpow_plus. change (10 + 401)%Z with 411%Z. pose proof (bpow_le radix2 411 999 ltac:(lia)). pose proof (bpow_le radix2 400 999 ltac:(lia)). change 1000%Z with (999 + 1)%Z. rewrite bpow_plus. change (bpow radix2 1) with 2. lra. }
    destruct (normalize_val (fst b) (snd b) Fl Fh Ll ltac:(lra) ltac:(lra) x Fx Bp) as (F & V). pose proof (upper_slack (fst b) (snd b) Fl Fh Ll ltac:(lra) ltac:(lra)) as U. split; [exact F|]. change (fbox_size b) with (B2R (fsize (fst b) (snd b))). lra. }
  split; [exact Hz|].
  assert (I : each (fun b x y => exists k, Rabs (B2R y - B2R x - IZR k * fbox_size b) <= coord_error b) boxes q z) by (apply each_map; auto; intros b x Gb Gx; apply normalize_computed; auto).
  assert (Ps : Forall (fun b => 0 <= coord_error b) boxes). { eapply Forall_impl; [|exact G]. intros b Gb. destruct (width_size b Gb) as (W0 & _ & WM & _). unfold coord_error. pose proof (bpow_gt_0 radix2 (-38)). pose proof (bpow_gt_0 radix2 (-50)). nra. }
  destruct (sum_images boxes q z I Ps) as (ks & Lk & Sk & E0). fold E in Sk, E0.
  assert (Wz : within_dist true boxes z q E) by (exists ks; split; [exact Lk|split; [discriminate|exact Sk]]).
  assert (Tr : forall x y, good_position boxes x -> good_position boxes y -> within_dist true boxes x y E -> D p y <= (1 + bpow radix2 (-41)) * (D p x + E) + bpow radix2 (-37) * total_size boxes).
  { intros x y Hx Hy W. destruct (C78_distance true boxes p x G L Ne Hp Hx) as (_ & P1 & W1 & _). fold (D p x) in P1, W1. destruct (C78_distance true boxes p y G L Ne Hp Hy) as (_ & _ & _ & U). fold (D p y) in U.
    pose proof (error_nonneg boxes (D p x) G P1) as E1. pose proof (error_nonneg boxes 0 G (Rle_refl 0)) as E2. specialize (U (D p x + dist_error boxes (D p x) + E) ltac:(lra)).
    assert (W2 : within_dist true boxes p y (D p x + dist_error boxes (D p x) + E)).
    { apply within_place_iff. apply (within_triangle true boxes (place p) (place x) (place y)); try (unfold place; rewrite map_length; apply length_good; auto); try lra; apply within_place_iff; auto. }
    specialize (U W2). unfold dist_error in *. rewrite Rmult_0_r, Rplus_0_l in E2. change (bpow radix2 (-43)) with (/ 8796093022208) in *. change (bpow radix2 (-39)) with (/ 549755813888) in *. change (bpow radix2 (-41)) with (/ 2199023255552). change (bpow radix2 (-37)) with (/ 137438953472). lra. }
  split; [apply (Tr q z Hq Hz), within_sym, Wz|apply (Tr z q Hz Hq Wz)]. Qed.
Print Assumptions C78_images.

(** *** finding: in the box [0.3, 0.9] the position just below 0.3 is normalised to the number just above 0.9 *)
Definition c78_lo : double := of_dyadic 5404319552844595 (-54).
Definition c78_hi : double := of_dyadic 8106479329266893 (-53).
Theorem C78_above_upper_limit_refuted : exists x : double, is_finite x = true /\ good_coord (c78_lo, c78_hi) x /\ B2R c78_hi < B2R (fnormalize c78_lo c78_hi x).
Proof. exists (of_dyadic 5404319552844594 (-54)). destruct (of_dyadic_val 5404319552844594 (-54) ltac:(lia) ltac:(lia)) as (Fx & Vx). destruct (of_dyadic_val 5404319552844595 (-54) ltac:(lia) ltac:(lia)) as (Fl & Vl). destruct (of_dyadic_val 8106479329266893 (-53) ltac:(lia) ltac:(lia)) as (Fh & Vh). destruct (of_dyadic_val 8106479329266894 (-53) ltac:(lia) ltac:(lia)) as (_ & Vr).
  split; [exact Fx|]. split.
  - split; [exact Fx|]. cbn [fst]. unfold fbox_size. cbn [fst snd]. assert (Es : fsub c78_hi c78_lo = of_dyadic 5404319552844596 (-53)) by (apply B2SF_inj; vm_compute; reflexivity). rewrite Es. destruct (of_dyadic_val 5404319552844596 (-53) ltac:(lia) ltac:(lia)) as (_ & Vs). rewrite Vs. unfold c78_lo. rewrite Vl, Vx.
    change (bpow radix2 (-54)) with (/ 18014398509481984). change (bpow radix2 (-53)) with (/ 9007199254740992). change (bpow radix2 10) with 1024. apply abs_iff. lra.
  - assert (Er : fnormalize c78_lo c78_hi (of_dyadic 5404319552844594 (-54)) = of_dyadic 8106479329266894 (-53)) by (apply B2SF_inj; vm_compute; reflexivity). rewrite Er, Vr. unfold c78_hi. rewrite Vh. apply Rmult_lt_compat_r; [apply bpow_gt_0|]. apply IZR_lt. lia. Qed.
Print Assumptions C78_above_upper_limit_refuted.

Lemma first_place (x y : double) p q : same_place (x :: p) (y :: q) -> B2R x = B2R y. Proof. intros H. inversion H. assumption. Qed.
(** hypotheses met: that box and a second one given in the wrong order, with positions inside and outside *)
Theorem C78_hypotheses_met : let boxes := fcoord_limits [(c78_lo, c78_hi); (fone, of_dyadic (-1) (-2))] in
  Forall good_box boxes /\ (length boxes <= 64)%nat /\ boxes <> [] /\ good_position boxes [of_dyadic 5404319552844594 (-54); of_dyadic 7 (-1)] /\ good_position boxes [of_dyadic 1 (-1); of_dyadic 1 (-1)] /\
  ~ same_place [of_dyadic 5404319552844594 (-54); of_dyadic 7 (-1)] [of_dyadic 1 (-1); of_dyadic 1 (-1)].
Proof. cbv zeta. assert (Eb : fcoord_limits [(c78_lo, c78_hi); (fone, of_dyadic (-1) (-2))] = [(c78_lo, c78_hi); (of_dyadic (-1) (-2), fone)]).
  { unfold fcoord_limits. cbn [map]. unfold fsorted. cbn [fst snd]. assert (E1 : flt c78_hi c78_lo = false) by (vm_compute; reflexivity). assert (E2 : flt (of_dyadic (-1) (-2)) fone = true) by (vm_compute; reflexivity). rewrite E1, E2. reflexivity. }
  rewrite Eb. clear Eb. destruct (of_dyadic_val 5404319552844594 (-54) ltac:(lia) ltac:(lia)) as (Fx & Vx). destruct (of_dyadic_val 5404319552844595 (-54) ltac:(lia) ltac:(lia)) as (Fl & Vl). destruct (of_dyadic_val 8106479329266893 (-53) ltac:(lia) ltac:(lia)) as (Fh & Vh).
  destruct (of_dyadic_val (-1) (-2) ltac:(lia) ltac:(lia)) as (Fm & Vm). destruct (of_dyadic_val 7 (-1) ltac:(lia) ltac:(lia)) as (F7 & V7). destruct (of_dyadic_val 1 (-1) ltac:(lia) ltac:(lia)) as (F2 & V2). destruct fone_val as (F1 & V1).
  assert (S1 : fbox_size (c78_lo, c78_hi) = IZR 5404319552844596 * bpow radix2 (-53)). { unfold fbox_size. cbn [fst snd]. assert (Es : fsub c78_hi c78_lo = of_dyadic 5404319552844596 (-53)) by (apply B2SF_inj; vm_compute; reflexivity). rewrite Es. apply (of_dyadic_val 5404319552844596 (-53)); lia. }
  assert (S2 : fbox_size (of_dyadic (-1) (-2), fone) = IZR 5 * bpow radix2 (-2)). { unfold fbox_size. cbn [fst snd]. assert (Es : fsub fone (of_dyadic (-1) (-2)) = of_dyadic 5 (-2)) by (apply B2SF_inj; vm_compute; reflexivity). rewrite Es. apply (of_dyadic_val 5 (-2)); lia. }
  assert (T : bpow radix2 (-400) <= / 2) by (change (/ 2) with (bpow radix2 (-1)); apply bpow_le; lia). assert (U : 2 <= bpow radix2 400) by (change 2 with (bpow radix2 1); apply bpow_le; lia).
  change (bpow radix2 (-54)) with (/ 18014398509481984) in *. change (bpow radix2 (-53)) with (/ 9007199254740992) in *. change (bpow radix2 (-2)) with (/ 4) in *. change (bpow radix2 (-1)) with (/ 2) in *.
  split; [|split; [|split; [|split; [|split]]]].
  - constructor; [|constructor; [|constructor]]; unfold good_box; [rewrite S1|rewrite S2]; cbn [fst snd]; unfold c78_lo, c78_hi.
    + rewrite Vl, Vh. repeat (split; [first [assumption|lra|apply abs_iff; lra]|]). lra.
    + rewrite Vm, V1. repeat (split; [first [assumption|lra|apply abs_iff; lra]|]). lra.
  - cbn. lia.
  - discriminate.
  - constructor; [|constructor; [|constructor]]; unfold good_coord; [rewrite S1|rewrite S2]; cbn [fst]; unfold c78_lo; change (bpow radix2 10) with 1024; (split; [assumption|]); apply abs_iff; lra.
  - constructor; [|constructor; [|constructor]]; unfold good_coord; [rewrite S1|rewrite S2]; cbn [fst]; unfold c78_lo; change (bpow radix2 10) with 1024; (split; [assumption|]); apply abs_iff; lra.
  - intros H. apply first_place in H. rewrite Vx, V2 in H. lra. Qed.
Print Assumptions C78_hypotheses_met.
