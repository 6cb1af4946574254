(** The computed distance of close positions is small; so positions whose computed distances
    exceed the cutoff are in different cells (compare Packing.v). *)
From Coq Require Import ZArith Reals Psatz List.
From Flocq Require Import Core BinarySingleNaN Relative.
From Verif Require Import Base BaseFacts CoordSys CellList CellListFacts Float FloatFacts FloatVector FloatVectorFacts FloatMin FloatCell SpecFloatCell FloatCellNum FloatCellFacts NelderMead FloatCheck FloatController SpecFloatSearch.
From Coq Require Import Lra.
Import ListNotations.
Open Scope list_scope.
Open Scope R_scope.

(** ** one coordinate *)
Lemma delta_upper b x y : good_box b -> good_coord b x -> good_coord b y -> let s := val (fsize (fst b) (snd b)) in
  fin (fdelta b x y) /\ Rabs (val (fdelta b x y)) <= Rabs (val y - val x) * (1 + pw (-53)) + pw (-50) * s.
Proof. intros Gb (Fx & Bx) (Fy & By) s. change (fbox_size b) with s in Bx, By. destruct (size_ok b Gb) as (Fs & Ls & Us). pose proof (s_pos b Gb) as Ps. pose proof (tiny b Gb) as T. fold s in Bx, By, Ls, Us, Ps, T.
  assert (B : Rabs (val y - val x) <= pw 412).
  { apply Rle_trans with (pw 11 * s); [change 11%Z with (10 + 1)%Z; rewrite pow_succ; rewrite abs_le in *; lra|]. change 412%Z with (11 + 401)%Z. rewrite <- pw_mul. apply Rmult_le_compat_l; [left; apply pw_pos|auto]. }
  destruct (fsub_val y x 412 ltac:(lia) Fy Fx B) as (Fa & Va). pose proof (rnd_rel (val y - val x)) as Ea. rewrite <- Va in Ea. unfold fdelta. set (S := fsize (fst b) (snd b)) in *. set (a := fsub y x) in *. cbv zeta.
  destruct (np_mod_val a S Fa Fs Ps) as (Fm & Vm & Rm & _). set (m := np_mod a S) in *. fold s in Rm, Vm. change (val S) with s in Vm.
  assert (Bm : Rabs (s - val m) <= pw 401) by (rewrite abs_le; lra). destruct (fsub_val S m 401 ltac:(lia) Fs Fm Bm) as (Fn & Vn). fold s in Vn.
  pose proof (rnd_rel (s - val m)) as En. rewrite <- Vn in En. rewrite (Rabs_pos_eq (s - val m)) in En by lra. destruct (fmin_val (fsub S m) m Fn Fm) as (Fd & Vd). split; auto. rewrite Vd.
  assert (P0 : 0 <= val (fsub S m)) by (rewrite Vn; apply rnd_pos; lra).
  rewrite (Rabs_pos_eq (Rmin _ _)) by (apply Rmin_glb; lra).
  set (D := Rabs (val y - val x)) in *. assert (D0 : 0 <= D) by apply Rabs_pos. assert (Ba : Rabs (val a) <= D * (1 + pw (-53)) + pw (-1075)).
  { replace (val a) with ((val a - (val y - val x)) + (val y - val x)) by ring. eapply Rle_trans; [apply Rabs_triang|]. fold D. lra. }
  assert (E50 : pw (-50) = 8 * pw (-53)) by (change 8 with (pw 3); rewrite pw_mul; reflexivity). pose proof (pw_pos (-53)) as P53.
  assert (T53 : pw (-1075) <= pw (-53) * s) by (eapply Rle_trans; [exact T|]; apply Rmult_le_compat_r; [lra|apply pw_le; lia]). assert (Z53 : 0 < pw (-53) * s) by (apply Rmult_lt_0_compat; lra).
  destruct (Rle_or_lt s (Rabs (val a))) as [Big|Small]; [apply Rle_trans with (val m); [apply Rmin_r|rewrite E50; lra]|].
  rewrite Vm in *. set (q := Ztrunc (val a / s)) in *.
  assert (Q0 : q = 0%Z).
  { unfold q. apply Rabs_def2 in Small. destruct (Rle_or_lt 0 (val a)) as [H|H].
    - rewrite Ztrunc_floor by (apply Rmult_le_pos; [lra|left; apply Rinv_0_lt_compat; lra]). apply Zfloor_imp. split; [apply Rmult_le_pos; [lra|left; apply Rinv_0_lt_compat; lra]|]. cbn [Z.add]. apply (Rmult_lt_reg_r s); [lra|]. unfold Rdiv. rewrite Rmult_assoc, Rinv_l by lra. lra.
    - rewrite Ztrunc_ceil. 2: { pose proof (Rinv_0_lt_compat s Ps). unfold Rdiv. nra. } apply Zceil_imp. split.
      + change (IZR (0 - 1)) with (-1). apply (Rmult_lt_reg_r s); [lra|]. unfold Rdiv. rewrite Rmult_assoc, Rinv_l by lra. lra.
      + pose proof (Rinv_0_lt_compat s Ps). unfold Rdiv. nra. }
  rewrite Q0 in *. change (IZR 0) with 0 in *. rewrite Rmult_0_l, Rminus_0_r in *.
  destruct (Rlt_bool_spec (val a) 0) as [Neg|Pos].
  - apply Rle_trans with (val (fsub S m)); [apply Rmin_l|]. rewrite Rabs_left in Ba by auto. rewrite Rabs_left in Small by auto.
    pose proof (rnd_rel (val a + s)) as Er. rewrite (Rabs_pos_eq (val a + s)) in Er by lra.
    assert (Y : pw (-53) * (val a + s) <= pw (-53) * s) by (apply Rmult_le_compat_l; lra).
    assert (Y2 : pw (-53) * (s - rnd (val a + s)) <= pw (-53) * s) by (apply Rmult_le_compat_l; lra).
    rewrite E50. rewrite abs_le in *. lra.
  - apply Rle_trans with (val a); [apply Rmin_r|]. rewrite Rabs_pos_eq in Ba by auto. rewrite E50. lra. Qed.
Lemma sub_upper b x y : good_box b -> good_coord b x -> good_coord b y -> let s := val (fsize (fst b) (snd b)) in
  fin (fsub y x) /\ Rabs (val (fsub y x)) <= Rabs (val y - val x) * (1 + pw (-53)) + pw (-50) * s.
Proof. intros Gb (Fx & Bx) (Fy & By) s. change (fbox_size b) with s in Bx, By. destruct (size_ok b Gb) as (Fs & Ls & Us). pose proof (s_pos b Gb) as Ps. pose proof (tiny b Gb) as T. fold s in Bx, By, Ls, Us, Ps, T.
  assert (B : Rabs (val y - val x) <= pw 412).
  { apply Rle_trans with (pw 11 * s); [change 11%Z with (10 + 1)%Z; rewrite pow_succ; rewrite abs_le in *; lra|]. change 412%Z with (11 + 401)%Z. rewrite <- pw_mul. apply Rmult_le_compat_l; [left; apply pw_pos|auto]. }
  destruct (fsub_val y x 412 ltac:(lia) Fy Fx B) as (Fa & Va). pose proof (rnd_rel (val y - val x)) as Ea. rewrite <- Va in Ea. split; auto.
  replace (val (fsub y x)) with ((val (fsub y x) - (val y - val x)) + (val y - val x)) by ring. eapply Rle_trans; [apply Rabs_triang|].
  assert (pw (-60) * s <= pw (-50) * s) by (apply Rmult_le_compat_r; [lra|apply pw_le; lia]). lra. Qed.

(** ** the norm *)
Lemma sum_upper E : pw (-1000) <= E <= pw 1000 -> forall l a n, fin a -> (0 <= n)%Z -> (n + Z.of_nat (length l) <= 64)%Z -> 0 <= val a <= IZR n * E * (1 + IZR n * pw (-50)) ->
  Forall (fun x => fin x /\ 0 <= val x <= E) l ->
  fin (fold_left fadd l a) /\ 0 <= val (fold_left fadd l a) <= IZR (n + Z.of_nat (length l)) * E * (1 + IZR (n + Z.of_nat (length l)) * pw (-50)).
Proof. intros HE. induction l as [|x l IH]; intros a n Fa Hn Hl Va H; cbn [fold_left length].
  - rewrite Z.add_0_r. auto.
  - inversion H as [|? ? (Fx & Vx) H']; subst. cbn [length] in Hl. pose proof (pw_pos (-1000)) as P. pose proof (pw_pos (-53)) as P53.
    assert (N0 : 0 <= IZR n <= 63) by (split; [apply (IZR_le 0)|apply (IZR_le n 63)]; lia).
    assert (U : pw (-53) <= / 1048576) by (change (/ 1048576) with (pw (-20)); apply pw_le; lia).
    assert (E50 : pw (-50) = 8 * pw (-53)) by (change 8 with (pw 3); rewrite pw_mul; reflexivity).
    assert (T : pw (-1075) <= pw (-53) * E) by (apply Rle_trans with (pw (-53) * pw (-1000)); [rewrite pw_mul; apply pw_le; lia|apply Rmult_le_compat_l; lra]).
    assert (W : IZR n * (1 + IZR n * pw (-50)) <= 64) by (rewrite E50; nra).
    assert (W' : IZR n * E * (1 + IZR n * pw (-50)) <= 64 * E) by (replace (IZR n * E * (1 + IZR n * pw (-50))) with (IZR n * (1 + IZR n * pw (-50)) * E) by ring; apply Rmult_le_compat_r; lra).
    assert (B : Rabs (val a + val x) <= pw 1007).
    { rewrite Rabs_pos_eq by lra. change 1007%Z with (7 + 1000)%Z. rewrite <- pw_mul. change (pw 7) with 128. lra. }
    destruct (fadd_val a x 1007 ltac:(lia) Fa Fx B) as (Fs & Vs). pose proof (rnd_rel (val a + val x)) as Er. rewrite <- Vs in Er. rewrite (Rabs_pos_eq (val a + val x)) in Er by lra.
    destruct (IH (fadd a x) (n + 1)%Z Fs) as (Ff & L2); auto; try lia.
    { split; [rewrite Vs; apply rnd_pos; lra|]. rewrite plus_IZR. rewrite abs_le in Er.
      apply Rle_trans with ((val a + val x) * (1 + pw (-53)) + pw (-53) * E); [lra|].
      apply Rle_trans with ((IZR n * E * (1 + IZR n * pw (-50)) + E) * (1 + pw (-53)) + pw (-53) * E); [apply Rplus_le_compat_r, Rmult_le_compat_r; lra|].
      rewrite E50. revert N0 U P53. generalize (pw (-53)) (IZR n). intros u k N0 U P53.
      replace ((k * E * (1 + k * (8 * u)) + E) * (1 + u) + u * E) with (E * ((k * (1 + k * (8 * u)) + 1) * (1 + u) + u)) by ring.
      replace ((k + 1) * E * (1 + (k + 1) * (8 * u))) with (E * ((k + 1) * (1 + (k + 1) * (8 * u)))) by ring. apply Rmult_le_compat_l; [lra|].
      assert (K2 : 0 <= k * k * u <= / 16) by (split; [nra|]; assert (k * k <= 3969) by nra; nra).
      assert (8 * u * (k * k * u) <= 8 * u * / 16) by (apply Rmult_le_compat_l; lra). nra. }
    replace (n + Z.of_nat (S (length l)))%Z with (n + 1 + Z.of_nat (length l))%Z by lia. auto. Qed.

Lemma norm_upper l e : (length l <= 64)%nat -> pw (-450) <= e <= pw 450 -> Forall (fun x => fin x /\ Rabs (val x) <= e) l -> fin (fnorm l) /\ 0 <= val (fnorm l) <= 9 * e.
Proof. intros Ll He H. unfold fnorm. pose proof (pw_pos (-450)) as P450. pose proof (pw_pos (-53)) as P53.
  assert (U : pw (-53) <= / 1048576) by (change (/ 1048576) with (pw (-20)); apply pw_le; lia).
  assert (E2 : pw (-900) <= e * e <= pw 900). { change (-900)%Z with (-450 + -450)%Z. change 900%Z with (450 + 450)%Z. rewrite <- !pw_mul. split; apply Rmult_le_compat; lra. }
  pose proof (pw_pos (-900)) as P900. set (E := e * e * (1 + pw (-51))). assert (E51 : pw (-51) = 4 * pw (-53)) by (change 4 with (pw 2); rewrite pw_mul; reflexivity).
  assert (HE : pw (-1000) <= E <= pw 1000).
  { unfold E. assert (pw (-1000) <= pw (-900)) by (apply pw_le; lia). assert (X : pw 1000 = pw 100 * pw 900) by (rewrite pw_mul; reflexivity). assert (2 <= pw 100) by (change 2 with (pw 1); apply pw_le; lia). split; nra. }
  destruct (sum_upper E HE (map (fun x => fmul x x) l) (B754_zero false) 0) as (Fs & Vs).
  - reflexivity. - lia. - rewrite map_length. lia. - cbn. lra.
  - apply Forall_map. eapply Forall_impl; [|exact H]. intros x (Fx & Vx).
    assert (Sq : 0 <= val x * val x <= e * e). { split; [nra|]. rewrite <- (Rabs_pos_eq (val x * val x)) by nra. rewrite Rabs_mult. pose proof (Rabs_pos (val x)). apply Rmult_le_compat; lra. }
    destruct (fmul_val x x 900 ltac:(lia) Fx Fx) as (Fm & Vm); [rewrite Rabs_pos_eq; lra|]. split; auto. rewrite Vm. split; [apply rnd_pos; lra|].
    pose proof (rnd_rel (val x * val x)) as Er. rewrite (Rabs_pos_eq (val x * val x)) in Er by lra. assert (T : pw (-1075) <= pw (-53) * (e * e)) by (apply Rle_trans with (pw (-53) * pw (-900)); [rewrite pw_mul; apply pw_le; lia|apply Rmult_le_compat_l; lra]).
    unfold E. rewrite E51. rewrite abs_le in Er. nra.
  - rewrite map_length in Vs. cbn [Z.add] in Vs. set (sm := fold_left fadd _ _) in *. set (k := IZR (Z.of_nat (length l))) in *.
    assert (Hk : 0 <= k <= 64) by (unfold k; split; [apply (IZR_le 0)|apply (IZR_le _ 64)]; lia).
    pose proof (Bsqrt_correct 53 1024 _ _ mode_NE sm) as (V & F & _).
    assert (Fq : fin (fsqrt sm)).
    { unfold fin, fsqrt. rewrite F. destruct sm as [| | |[] m e' Hm]; auto; try discriminate Fs. exfalso. cbn in Vs. unfold F2R in Vs. cbn [Fnum Fexp] in Vs.
      pose proof (bpow_gt_0 radix2 e'). assert (IZR (Z.neg m) < 0) by (apply IZR_lt; reflexivity). cbn [SpecFloat.cond_Zopp Z.opp] in Vs. nra. }
    assert (Vq : val (fsqrt sm) = rnd (sqrt (val sm))) by exact V. pose proof (sqrt_pos (val sm)) as R0. split; auto. rewrite Vq. split; [apply rnd_pos; auto|].
    assert (E50 : pw (-50) = 8 * pw (-53)) by (change 8 with (pw 3); rewrite pw_mul; reflexivity).
    assert (Sm : val sm <= (e * (8 + / 4)) * (e * (8 + / 4))).
    { eapply Rle_trans; [apply Vs|]. replace (k * E * (1 + k * pw (-50))) with (E * (k * (1 + k * pw (-50)))) by ring. unfold E. replace (e * (8 + / 4) * (e * (8 + / 4))) with (e * e * ((8 + / 4) * (8 + / 4))) by ring.
      rewrite Rmult_assoc. apply Rmult_le_compat_l; [lra|]. rewrite E50, E51. assert (k * (1 + k * (8 * pw (-53))) <= 65) by nra. nra. }
    assert (Sq : sqrt (val sm) <= e * (8 + / 4)) by (rewrite <- (sqrt_square (e * (8 + / 4))) by nra; apply sqrt_le_1_alt; auto).
    pose proof (rnd_rel (sqrt (val sm))) as Er. rewrite (Rabs_pos_eq (sqrt (val sm))) in Er by auto.
    assert (T : pw (-1075) <= / 4 * e) by (apply Rle_trans with (/ 4 * pw (-450)); [change (/ 4) with (pw (-2)); rewrite pw_mul; apply pw_le; lia|lra]).
    rewrite abs_le in Er. nra. Qed.

(** ** the distance *)
Definition close_coords (boxes : list fbox) (e : R) (p q : fpoint) : Prop := Forall2 (fun _ xy => Rabs (val (snd xy) - val (fst xy)) <= e) boxes (combine p q).
Lemma dist_upper per boxes p q e : Forall good_box boxes -> (length boxes <= 64)%nat -> pw (-450) <= e <= pw 449 -> good_position boxes p -> good_position boxes q ->
  close_coords boxes e p q -> Forall (fun b => pw (-50) * fbox_size b <= / 8 * e) boxes -> B2R (fdist per boxes p q) <= 11 * e.
Proof. intros Gb Ll He Gp Gq C Hs. assert (P : 0 < pw (-450)) by apply pw_pos. assert (U : pw (-53) <= / 1048576) by (change (/ 1048576) with (pw (-20)); apply pw_le; lia).
  set (l := if per then per_coordinate fdelta boxes p q else map2 fsub q p). assert (E : fdist per boxes p q = fnorm l) by (unfold l, fdist, fdistance; destruct per; reflexivity). rewrite E.
  assert (L : Forall (fun x => fin x /\ Rabs (val x) <= 10 / 9 * (11 / 10) * e) l /\ length l = length boxes).
  { unfold l. clear E l Ll. revert p q Gp Gq C. induction boxes as [|b boxes IH]; intros p q Gp Gq C; inversion Gp as [|? x ? p' Gx Gp']; inversion Gq as [|? y ? q' Gy Gq']; subst.
    - destruct per; cbn; auto.
    - unfold close_coords in C. cbn [combine] in C. inversion C as [|? ? ? ? Cx C']; subst. cbn [fst snd] in Cx. inversion Gb as [|? ? Gb1 Gb2]; subst. inversion Hs as [|? ? Hs1 Hs2]; subst.
      destruct (IH Gb2 Hs2 p' q' Gp' Gq' C') as (A & A2).
      assert (B : forall z, fin z /\ Rabs (val z) <= Rabs (val y - val x) * (1 + pw (-53)) + pw (-50) * val (fsize (fst b) (snd b)) -> fin z /\ Rabs (val z) <= 10 / 9 * (11 / 10) * e).
      { intros z (Fz & Bz). split; auto. change (val (fsize (fst b) (snd b))) with (fbox_size b) in Bz. pose proof (Rabs_pos (val y - val x)). assert (Rabs (val y - val x) * (1 + pw (-53)) <= e * (1 + pw (-53))) by (apply Rmult_le_compat_r; [pose proof (pw_pos (-53)); lra|auto]). nra. }
      destruct per; unfold per_coordinate in *; cbn [combine map map2 length] in *; (split; [constructor; auto; apply B|congruence]).
      + apply delta_upper; auto. + apply sub_upper; auto. }
  destruct L as (L & Le). destruct (norm_upper l (10 / 9 * (11 / 10) * e)) as (_ & _ & B); auto; [lia| |lra].
  assert (E450 : pw 450 = 2 * pw 449) by (change 450%Z with (449 + 1)%Z; apply pow_succ). lra. Qed.

(** ** cells *)
Section Cells.
  Variables (per : bool) (c : double).
  Hypothesis Gc : good_cutoff c.
  Let w : R := B2R c / 16.
  Definition base (b : fbox) : R := B2R (fst b) - (if per then 0 else 512 * fbox_size b).
  Definition rcell1 (b : fbox) (x : double) : Z := Zfloor ((B2R x - base b) / w).
  Definition rextent (b : fbox) : Z := (1 + Zfloor ((if per then 24 else 16384) * fbox_size b / B2R c))%Z.

  Lemma w_pos : 0 < w.
  Proof. destruct Gc as (_ & L & _). pose proof (pw_pos (-400)). unfold w. lra. Qed.
  Lemma c_pos : 0 < B2R c.
  Proof. pose proof w_pos. unfold w in *. lra. Qed.
  Lemma rcell1_close b x y : rcell1 b x = rcell1 b y -> Rabs (val y - val x) <= w.
  Proof. intros E. unfold rcell1 in E. pose proof w_pos as W. pose proof (Zfloor_lb ((val x - base b) / w)) as A. pose proof (Zfloor_ub ((val x - base b) / w)) as B.
    pose proof (Zfloor_lb ((val y - base b) / w)) as C. pose proof (Zfloor_ub ((val y - base b) / w)) as D. rewrite E in A, B. set (k := IZR (Zfloor ((val y - base b) / w))) in *.
    assert (X : forall z, (z / w) * w = z) by (intros; field; lra). apply (Rmult_le_compat_r w) in A, C; try lra. apply (Rmult_lt_compat_r w) in B, D; try lra. rewrite X in *. rewrite Rmult_plus_distr_r in *. apply Rabs_le. lra. Qed.
  Lemma rcell1_range b x : good_box b -> (if per then in_box b x else fin x /\ Rabs (B2R x - B2R (fst b)) <= pw 9 * fbox_size b) -> (0 <= rcell1 b x < rextent b)%Z.
  Proof. intros G H. pose proof (s_pos b G) as Ps. change (val (fsize (fst b) (snd b))) with (fbox_size b) in Ps. pose proof w_pos as W. pose proof c_pos as C. change (pw 9) with 512 in H.
    assert (R : 0 <= B2R x - base b <= (if per then 3 / 2 else 1024) * fbox_size b).
    { unfold base. destruct per; [destruct H as (_ & H); lra|destruct H as (_ & H); rewrite abs_le in H; lra]. }
    unfold rcell1, rextent. split.
    - apply Zfloor_lub. change (IZR 0) with 0. apply Rmult_le_pos; [lra|left; apply Rinv_0_lt_compat; lra].
    - assert (E : (if per then 24 else 16384) * fbox_size b / B2R c = (if per then 3 / 2 else 1024) * fbox_size b / w) by (unfold w; destruct per; field; lra). rewrite E.
      assert (Zfloor ((B2R x - base b) / w) <= Zfloor ((if per then 3 / 2 else 1024) * fbox_size b / w))%Z; [|lia]. apply Zfloor_le. apply Rmult_le_compat_r; [left; apply Rinv_0_lt_compat; lra|lra]. Qed.
  Variable boxes : list fbox.
  Hypothesis Gb : Forall good_box boxes.
  Hypothesis Ll : (length boxes <= 64)%nat.
  Hypothesis Hs : Forall (fun b => fbox_size b <= pw 42 * B2R c) boxes.
  Definition rcell (p : fpoint) : list Z := map2 rcell1 boxes p.
  Lemma rcell_range p : refinable per boxes p -> In (rcell p) (product (map zrange (map rextent boxes))).
  Proof. intros H. apply in_range_product. assert (F : Forall2 (fun b x => if per then in_box b x else fin x /\ Rabs (B2R x - B2R (fst b)) <= pw 9 * fbox_size b) boxes p) by (unfold refinable, fwithin in H; destruct per; auto).
    clear H. unfold rcell, in_range. revert Gb. clear Ll Hs. induction F as [|b x bs p Hx F IH]; intros G; cbn; constructor; inversion G; subst; auto. apply rcell1_range; auto. Qed.
  Lemma rcell_close p q : good_position boxes p -> good_position boxes q -> rcell p = rcell q -> B2R (fdist per boxes q p) < reduced c.
  Proof. intros Gp Gq E. destruct Gc as (_ & Lc & Uc). pose proof (pw_pos (-400)) as P400. apply Rle_lt_trans with (11 * w).
    - apply dist_upper; auto.
      + unfold w. assert (pw (-450) * 16 <= pw (-400)) by (change 16 with (pw 4); rewrite pw_mul; apply pw_le; lia). assert (pw 400 <= pw 449) by (apply pw_le; lia). lra.
      + unfold close_coords. unfold rcell in E. clear Hs Ll. revert E Gb. revert q Gq. induction Gp as [|b x bs p Hx Gp IH]; intros q Gq E G; inversion Gq as [|? y ? q' Hy Gq']; subst; cbn [combine]; constructor.
        * cbn [map2] in E. pose proof (f_equal (hd 0%Z) E) as E1. cbn [hd] in E1. cbn [fst snd]. apply (rcell1_close b). auto.
        * cbn [map2] in E. pose proof (f_equal (@tl Z) E) as E2. cbn [tl] in E2. inversion G; subst. apply IH; auto.
      + eapply Forall_impl; [|exact Hs]. intros b Hb. apply Rle_trans with (pw (-50) * (pw 42 * val c)); [apply Rmult_le_compat_l; [left; apply pw_pos|auto]|]. rewrite <- Rmult_assoc, pw_mul. change (pw (-50 + 42)) with (/ 256). unfold w. lra.
    - unfold reduced, w. assert (pw (-30) <= / 1024) by (change (/ 1024) with (pw (-10)); apply pw_le; lia). nra. Qed.
  Lemma product_length {A} (ls : list (list A)) : length (product ls) = fold_right Nat.mul 1%nat (map (@length A) ls).
  Proof. induction ls as [|l ls IH]; cbn; auto. rewrite <- IH. clear IH. induction l as [|a l IHl]; cbn; auto. rewrite app_length, map_length, IHl. reflexivity. Qed.

  Theorem fpacking l : Forall (refinable per boxes) l -> Forall (good_position boxes) l -> separated per boxes c l -> (length l <= fpacking_bound per boxes c)%nat.
  Proof. intros F G S.
    assert (ND : NoDup (map rcell l)).
    { apply NoDup_nth_error. intros i j Hi E. rewrite map_length in Hi. rewrite !nth_error_map in E.
      destruct (nth_error l i) as [p|] eqn:Ei; [|apply nth_error_None in Ei; lia].
      destruct (nth_error l j) as [q|] eqn:Ej; [|discriminate]. cbn in E. injection E as E. rewrite Forall_forall in G. pose proof (G p (nth_error_In _ _ Ei)) as Gp. pose proof (G q (nth_error_In _ _ Ej)) as Gq.
      destruct (Nat.lt_trichotomy i j) as [O|[O|O]]; auto; exfalso.
      - pose proof (S i j p q O Ei Ej) as X. pose proof (rcell_close p q Gp Gq E). lra.
      - pose proof (S j i q p O Ej Ei) as X. pose proof (rcell_close q p Gq Gp (eq_sym E)). lra. }
    assert (I : incl (map rcell l) (product (map zrange (map rextent boxes)))).
    { intros x Hx. apply in_map_iff in Hx as (p & <- & Hp). rewrite Forall_forall in F. apply rcell_range; auto. }
    pose proof (NoDup_incl_length ND I) as B. rewrite map_length, product_length in B. eapply Nat.le_trans; [exact B|]. unfold fpacking_bound. rewrite !map_map. apply Nat.eq_le_incl. f_equal. apply map_ext. intros b. unfold zrange. rewrite map_length, seq_length. reflexivity. Qed.
End Cells.

(** ** Counting doubles *)
Definition code (x : double) : Z :=
  match x with
  | B754_zero s => if s then 1 else 0
  | B754_finite s m e _ => 2 * (Zpos m + 2 ^ 53 * (e + 1074)) + (if s then 1 else 0)
  | _ => 0
  end%Z.
Lemma finite_range s m e H : is_finite (B754_finite s m e H : double) = true -> (Zpos m < 2 ^ 53 /\ -1074 <= e <= 971)%Z.
Proof. intros _. pose proof H as B. unfold SpecFloat.bounded in B. apply andb_true_iff in B as (B1 & B2). apply Z.leb_le in B2. unfold SpecFloat.canonical_mantissa in B1. apply Zeq_bool_eq in B1.
  unfold SpecFloat.fexp, SpecFloat.emin in B1. pose proof (Zpos_digits2_pos m) as D. rewrite D in B1. pose proof (Zdigits_correct radix2 (Zpos m)) as (_ & C). cbn [Z.abs] in C.
  assert (Zpower radix2 (Zdigits radix2 (Z.pos m)) <= 2 ^ 53)%Z by (apply (Zpower_le radix2); lia). lia. Qed.
Lemma code_range x : fin x -> (0 <= code x < 2 ^ 65)%Z.
Proof. destruct x as [s|s| |s m e H]; intros F; try discriminate F; cbn [code]; [destruct s; lia|]. apply finite_range in F as (A & B). assert (2 ^ 65 = 2 * (2 ^ 53 * 2048))%Z by reflexivity. assert (0 < 2 ^ 53)%Z by reflexivity. destruct s; nia. Qed.
Lemma code_inj x y : fin x -> fin y -> code x = code y -> x = y.
Proof. destruct x as [s|s| |s m e H], y as [t|t| |t n f H']; intros F G E; try discriminate F; try discriminate G; cbn [code] in E.
  - destruct s, t; auto; discriminate.
  - apply finite_range in G as (A & B). assert (0 < 2 ^ 53)%Z by reflexivity. exfalso. destruct s, t; nia.
  - apply finite_range in F as (A & B). assert (0 < 2 ^ 53)%Z by reflexivity. exfalso. destruct s, t; nia.
  - apply finite_range in F as (A & B). apply finite_range in G as (C & D). assert (P : (0 < 2 ^ 53)%Z) by reflexivity. set (K := (2 ^ 53)%Z) in *.
    assert (S : s = t) by (destruct s, t; auto; exfalso; lia). subst t. assert (M : (Z.pos m + K * (e + 1074) = Z.pos n + K * (f + 1074))%Z) by lia.
    assert (Ee : e = f) by nia. subst f. assert (Em : m = n) by lia. subst n. f_equal. apply eqbool_irrelevance. Qed.

Lemma all_nodup_le {A} (f : A -> Z) (l : list A) (N : Z) : NoDup l -> (forall x, In x l -> 0 <= f x < N)%Z -> (forall x y, In x l -> In y l -> f x = f y -> x = y) -> (Z.of_nat (length l) <= Z.max 0 N)%Z.
Proof. intros ND R I. assert (ND' : NoDup (map f l)). { clear R. induction ND as [|a l Ha ND IH]; cbn; constructor.
    - intros X. apply in_map_iff in X as (b & E & Hb). apply Ha. replace a with b; auto. apply I; cbn; auto.
    - apply IH. intros x y Hx Hy. apply I; cbn; auto. }
  destruct (Z_lt_le_dec N 0) as [Neg|Pos]. { destruct l as [|a l]; [cbn; lia|]. specialize (R a (or_introl eq_refl)). lia. }
  assert (J : incl (map (fun x => Z.to_nat (f x)) l) (seq 0 (Z.to_nat N))).
  { intros n Hn. apply in_map_iff in Hn as (x & <- & Hx). specialize (R x Hx). apply in_seq. lia. }
  assert (ND2 : NoDup (map (fun x => Z.to_nat (f x)) l)).
  { rewrite <- map_map. clear J. assert (R' : forall z, In z (map f l) -> (0 <= z)%Z) by (intros z Hz; apply in_map_iff in Hz as (x & <- & Hx); apply R; auto).
    revert ND' R'. generalize (map f l). clear. induction l as [|a l IH]; intros ND R; cbn; constructor; inversion ND as [|? ? Ha ND']; subst.
    - intros X. apply in_map_iff in X as (b & E & Hb). apply Ha. replace a with b; auto. apply Z2Nat.inj; auto; apply R; cbn; auto.
    - apply IH; auto. intros z Hz. apply R. cbn. auto. }
  pose proof (NoDup_incl_length ND2 J) as B. rewrite map_length, seq_length in B. lia. Qed.
(** vectors of [d] finite doubles *)
Fixpoint vcode (p : fpoint) : Z := match p with [] => 0 | x :: p' => code x + 2 ^ 65 * vcode p' end%Z.
Lemma vcode_range p : Forall fin p -> (0 <= vcode p < 2 ^ (65 * Z.of_nat (length p)))%Z.
Proof. induction 1 as [|x p Hx H IH]; [cbn; lia|]. cbn [vcode length]. pose proof (code_range x Hx) as C. replace (65 * Z.of_nat (S (length p)))%Z with (65 + 65 * Z.of_nat (length p))%Z by lia. rewrite Z.pow_add_r by lia.
  set (K := (2 ^ 65)%Z) in *. set (M := (2 ^ (65 * Z.of_nat (length p)))%Z) in *. nia. Qed.
Lemma vcode_inj : forall p q, Forall fin p -> Forall fin q -> length p = length q -> vcode p = vcode q -> p = q.
Proof. induction p as [|x p IH]; intros [|y q] Fp Fq L E; try discriminate; auto. inversion Fp; inversion Fq; subst. cbn [vcode] in E. pose proof (code_range x ltac:(auto)) as C. pose proof (code_range y ltac:(auto)) as D.
  set (K := (2 ^ 65)%Z) in *. assert (X : vcode p = vcode q) by nia. f_equal; [apply code_inj; auto; nia|apply IH; auto]. Qed.
Lemma count_vectors d l : NoDup l -> Forall (fun p => Forall fin p /\ length p = d) l -> (Z.of_nat (length l) <= 2 ^ (65 * Z.of_nat d))%Z.
Proof. intros ND F. rewrite Forall_forall in F. pose proof (all_nodup_le vcode l (2 ^ (65 * Z.of_nat d)) ND) as B. rewrite Z.max_r in B by (apply Z.pow_nonneg; lia). apply B.
  - intros x Hx. destruct (F x Hx) as (Fx & <-). apply vcode_range; auto.
  - intros x y Hx Hy. destruct (F x Hx) as (Fx & Lx). destruct (F y Hy) as (Fy & Ly). apply vcode_inj; auto. congruence. Qed.

(** ** Positions with the same coordinates have a tiny computed distance *)
Lemma delta_same b x y : good_box b -> good_coord b x -> good_coord b y -> val x = val y -> fin (fdelta b x y) /\ val (fdelta b x y) = 0.
Proof. intros Gb (Fx & Bx) (Fy & By) E. destruct (size_ok b Gb) as (Fs & Ls & Us). pose proof (s_pos b Gb) as Ps. set (s := val (fsize (fst b) (snd b))) in *.
  assert (B : Rabs (val y - val x) <= pw 412) by (replace (val y - val x) with 0 by lra; rewrite Rabs_R0; left; apply pw_pos).
  destruct (fsub_val y x 412 ltac:(lia) Fy Fx B) as (Fa & Va). rewrite E in Va. replace (val y - val y) with 0 in Va by ring. rewrite rnd_0 in Va.
  unfold fdelta. set (S := fsize (fst b) (snd b)) in *. set (a := fsub y x) in *. cbv zeta.
  destruct (np_mod_val a S Fa Fs Ps) as (Fm & Vm & Rm & _). set (m := np_mod a S) in *. change (val S) with s in Vm, Rm. rewrite Va in Vm.
  assert (Z : val m = 0). { rewrite Vm. replace (0 / s) with 0 by (field; lra). rewrite (Ztrunc_IZR 0). rewrite Rlt_bool_false by lra. change (IZR 0) with 0. ring. }
  assert (Bm : Rabs (s - val m) <= pw 401) by (rewrite abs_le; lra). destruct (fsub_val S m 401 ltac:(lia) Fs Fm Bm) as (Fn & Vn). fold s in Vn.
  destruct (fmin_val (fsub S m) m Fn Fm) as (Fd & Vd). split; auto. rewrite Vd, Z. apply Rmin_right. rewrite Vn. apply rnd_pos. lra. Qed.
Lemma sub_same x y : fin x -> fin y -> val x = val y -> fin (fsub y x) /\ val (fsub y x) = 0.
Proof. intros Fx Fy E. assert (B : Rabs (val y - val x) <= pw 412) by (replace (val y - val x) with 0 by lra; rewrite Rabs_R0; left; apply pw_pos).
  destruct (fsub_val y x 412 ltac:(lia) Fy Fx B) as (Fa & Va). split; auto. rewrite Va, E. replace (val y - val y) with 0 by ring. apply rnd_0. Qed.
Lemma same_close per boxes c p q : Forall good_box boxes -> (length boxes <= 64)%nat -> good_cutoff c -> good_position boxes p -> good_position boxes q ->
  Forall2 (fun x y => B2R x = B2R y) p q -> less c (fdist per boxes p q).
Proof. intros Gb Ll (_ & Lc & _) Gp Gq E. set (l := if per then per_coordinate fdelta boxes p q else map2 fsub q p).
  assert (Ef : fdist per boxes p q = fnorm l) by (unfold l, fdist, fdistance; destruct per; reflexivity).
  assert (L : Forall (fun x => fin x /\ Rabs (val x) <= pw (-450)) l /\ length l = length boxes).
  { unfold l. clear Ef l Ll Lc. assert (Z : forall z, fin z /\ val z = 0 -> fin z /\ Rabs (val z) <= pw (-450)) by (intros z (A & ->); split; auto; rewrite Rabs_R0; left; apply pw_pos).
    revert p q Gp Gq E. induction boxes as [|b boxes IH]; intros p q Gp Gq E; inversion Gp as [|? x ? p' Gx Gp']; inversion Gq as [|? y ? q' Gy Gq']; subst; [destruct per; cbn; auto|].
    inversion E as [|? ? ? ? E1 E2]; subst. inversion Gb as [|? ? Gb1 Gb2]; subst. destruct (IH Gb2 p' q' Gp' Gq' E2) as (A & A2).
    destruct per; unfold per_coordinate in *; cbn [combine map map2 length] in *; (split; [constructor; auto; apply Z|congruence]); [apply delta_same; auto|apply sub_same; [apply Gx|apply Gy|auto]]. }
  destruct L as (L & Le). rewrite Ef. destruct (norm_upper l (pw (-450))) as (F & _ & B); [lia|split; [lra|apply pw_le; lia]|auto|]. split; auto.
  assert (pw (-450) * 16 <= pw (-400)) by (change 16 with (pw 4); rewrite pw_mul; apply pw_le; lia). pose proof (pw_pos (-450)). lra. Qed.
