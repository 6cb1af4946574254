(** The assertion in [connecting_vector] in double precision. *)
From Coq Require Import ZArith Reals Psatz List.
From Flocq Require Import Core BinarySingleNaN Relative.
From Verif Require Import Base Float FloatFacts FloatVector.
From Coq Require Import Lra.
Import ListNotations.
Open Scope list_scope.
Open Scope R_scope.

Lemma rnd_err x k : (-1000 <= k)%Z -> Rabs x <= bpow radix2 k -> Rabs (rnd x - x) <= bpow radix2 (k - 54).
Proof. intros Hk B. destruct (Req_dec x 0) as [-> |Nx]; [rewrite rnd_0, Rminus_0_r, Rabs_R0; apply bpow_ge_0|].
  destruct (Rle_lt_or_eq_dec _ _ B) as [Lt|Eq].
  - eapply Rle_trans; [apply error_le_half_ulp; apply _|]. rewrite ulp_neq_0 by auto. unfold cexp. assert (M : (mag radix2 x <= k)%Z) by (apply mag_le_bpow; auto).
    replace (k - 54)%Z with (-1 + (k - 53))%Z by lia. rewrite bpow_plus. change (bpow radix2 (-1)) with (/ 2). apply Rmult_le_compat_l; [lra|]. apply bpow_le. rewrite FE_flt. unfold FLT_exp. lia.
  - assert (F : dformat x).
    { destruct (Rcase_abs x) as [H|H]; [rewrite Rabs_left in Eq by auto|rewrite Rabs_right in Eq by auto]; [replace x with (- bpow radix2 k) by lra; apply generic_format_opp|rewrite Eq]; apply pow_format; lia. }
    rewrite rnd_id, Rminus_diag_eq, Rabs_R0 by auto. apply bpow_ge_0. Qed.

(** the remainder, up to a multiple of the period and one rounding *)
Lemma np_mod_congr x s k : fin x -> fin s -> 0 < val s <= bpow radix2 k -> (-1000 <= k)%Z ->
  fin (np_mod x s) /\ 0 <= val (np_mod x s) <= val s /\ exists j err, val (np_mod x s) = val x + IZR j * val s + err /\ Rabs err <= bpow radix2 (k - 54).
Proof. intros Fx Fs (Ps & Bs) Hk. destruct (np_mod_val x s Fx Fs Ps) as (F & V & Rg & _). split; auto. split; auto.
  set (q := Ztrunc (val x / val s)) in *. destruct (fmod_range (val x) (val s) Ps) as (R1 & R2). cbv zeta in R1, R2. fold q in R1, R2.
  destruct (Rlt_bool_spec (val x - IZR q * val s) 0) as [Hm|Hm]; rewrite V.
  - exists (1 - q)%Z, (rnd (val x - IZR q * val s + val s) - (val x - IZR q * val s + val s)). split; [rewrite minus_IZR; ring|]. apply rnd_err; auto.
    assert (- val s < val x - IZR q * val s). { destruct (Rle_or_lt 0 (val x)); [specialize (R1 ltac:(lra)); lra|specialize (R2 ltac:(lra)); lra]. } rewrite Rabs_pos_eq by lra. lra.
  - exists (- q)%Z, 0. split; [rewrite opp_IZR; ring|]. rewrite Rabs_R0. apply bpow_ge_0. Qed.

Lemma abs_le x b : Rabs x <= b <-> - b <= x <= b.
Proof. split; [apply Rabs_le_inv|apply Rabs_le]. Qed.

Section Coordinate.
  Variables lo hi p1 p2 : double.
  Hypotheses (Fl : fin lo) (Fh : fin hi) (F1 : fin p1) (F2 : fin p2) (L : val lo < val hi).
  Hypotheses (Bl : Rabs (val lo) <= bpow radix2 20) (Bh : Rabs (val hi) <= bpow radix2 20) (B1 : Rabs (val p1) <= bpow radix2 20) (B2 : Rabs (val p2) <= bpow radix2 20).
  Notation s := (fsize lo hi).

  Let big (x : R) : x <= bpow radix2 20 -> x <= bpow radix2 1000.
  Proof. intros H. eapply Rle_trans; [exact H|]. apply bpow_le. lia. Qed.
  Lemma size_small : fin s /\ 0 < val s <= bpow radix2 21.
  Proof. destruct (size_val lo hi Fl Fh L (big _ Bl) (big _ Bh)) as (F & V & P & _). split; auto. split; auto. rewrite V. eapply Rle_trans; [apply Rle_abs|]. apply rnd_abs_le; [lia|].
    change 21%Z with (20 + 1)%Z. rewrite pow_succ. rewrite abs_le in *. lra. Qed.

  (** the vector is right up to three roundings and a multiple of the period *)
  Lemma connect_val : let r := fconnect (lo, hi) p1 p2 in fin r /\ Rabs (val r) <= bpow radix2 21 /\
    Rabs (val r) <= val s / 2 + bpow radix2 (-34) /\
    exists j err, val r = val p2 - val p1 + IZR j * val s + err /\ Rabs err <= 3 * bpow radix2 (-33).
  Proof. intros r. destruct size_small as (Fs & Ps). assert (E20 : bpow radix2 21 = 2 * bpow radix2 20) by (change 21%Z with (20 + 1)%Z; apply pow_succ).
    assert (B : Rabs (val p2 - val p1) <= bpow radix2 21) by (rewrite abs_le in *; lra).
    destruct (fsub_val p2 p1 21 ltac:(lia) F2 F1 B) as (Fa & Va). pose proof (rnd_err _ 21 ltac:(lia) B) as Ea. rewrite <- Va in Ea. change (21 - 54)%Z with (-33)%Z in Ea.
    destruct (np_mod_congr _ _ 21 Fa Fs Ps ltac:(lia)) as (Fd & Rd & j & e & Ed & Be). change (21 - 54)%Z with (-33)%Z in Be. unfold r, fconnect. cbn [fst snd]. set (d := np_mod (fsub p2 p1) s) in *.
    assert (Bd : Rabs (val d - val s) <= bpow radix2 21) by (rewrite abs_le; lra). destruct (fsub_val d s 21 ltac:(lia) Fd Fs Bd) as (Fn & Vn).
    pose proof (rnd_err _ 21 ltac:(lia) Bd) as En. rewrite <- Vn in En. change (21 - 54)%Z with (-33)%Z in En. pose proof (bpow_ge_0 radix2 (-33)) as P33.
    assert (Fo : fin (fopp (fsub d s))) by (unfold fin, fopp; rewrite is_finite_Bopp; exact Fn). assert (Vo : val (fopp (fsub d s)) = - val (fsub d s)) by apply B2R_Bopp.
    assert (E34 : bpow radix2 (-33) = 2 * bpow radix2 (-34)) by (change (-33)%Z with (-34 + 1)%Z; apply pow_succ).
    assert (Lc : flt (fopp (fsub d s)) d = Rlt_bool (- val (fsub d s)) (val d)) by (unfold flt; rewrite Bltb_correct by auto; rewrite Vo; reflexivity).
    rewrite Lc. destruct (Rlt_bool_spec (- val (fsub d s)) (val d)) as [Hc|Hc].
    - split; auto. split; [rewrite Vn; apply rnd_abs_le; [lia|auto]|]. split; [assert (val (fsub d s) <= 0) by (rewrite Vn; apply rnd_neg; lra); rewrite abs_le in *; lra|].
      exists (j - 1)%Z, (val (fsub p2 p1) - (val p2 - val p1) + e + (val (fsub d s) - (val d - val s))). split; [rewrite minus_IZR; lra|]. rewrite abs_le in *. lra.
    - split; auto. split; [rewrite abs_le; lra|]. split; [rewrite abs_le in *; lra|]. exists j, (val (fsub p2 p1) - (val p2 - val p1) + e). split; [lra|]. rewrite abs_le in *. lra. Qed.

  (** the distance of the moved first position from the second *)
  Lemma moved_val : let y := fadd (fconnect (lo, hi) p1 p2) p1 in fin y /\ Rabs (val y) <= bpow radix2 22 /\
    exists j err, val y = val p2 + IZR j * val s + err /\ Rabs err <= 5 * bpow radix2 (-33).
  Proof. intros y. destruct connect_val as (Fr & Br & _ & j & e & Er & Be). assert (E20 : bpow radix2 21 = 2 * bpow radix2 20) by (change 21%Z with (20 + 1)%Z; apply pow_succ).
    assert (E21 : bpow radix2 22 = 2 * bpow radix2 21) by (change 22%Z with (21 + 1)%Z; apply pow_succ). pose proof (bpow_gt_0 radix2 20) as P20.
    assert (B : Rabs (val (fconnect (lo, hi) p1 p2) + val p1) <= bpow radix2 22) by (rewrite abs_le in *; lra).
    destruct (fadd_val _ _ 22 ltac:(lia) Fr F1 B) as (Fy & Vy). fold y in Fy, Vy. pose proof (rnd_err _ 22 ltac:(lia) B) as Ey. rewrite <- Vy in Ey. change (22 - 54)%Z with (-33 + 1)%Z in Ey. rewrite pow_succ in Ey.
    split; auto. split; [rewrite Vy; apply rnd_abs_le; [lia|auto]|].
    exists j, (e + (val y - (val (fconnect (lo, hi) p1 p2) + val p1))). split; [lra|]. rewrite abs_le in *. lra. Qed.

  Lemma fmin_val x z : fin x -> fin z -> fin (fmin x z) /\ val (fmin x z) = Rmin (val x) (val z).
  Proof. intros Fx Fz. unfold fmin. assert (N : forall w : double, fin w -> is_nan w = false) by (intros [| | |]; intros; auto; discriminate). rewrite !N by auto.
    unfold flt. rewrite Bltb_correct by auto. destruct (Rlt_bool_spec (val z) (val x)) as [H|H]; (split; [auto|]); [rewrite Rmin_right by lra|rewrite Rmin_left by lra]; auto. Qed.

  Lemma delta_small : let d := fdelta (lo, hi) (fadd (fconnect (lo, hi) p1 p2) p1) p2 in fin d /\ 0 <= val d <= 5 * bpow radix2 (-32).
  Proof. intros d. destruct size_small as (Fs & Ps). destruct moved_val as (Fy & By & j & e & Ey & Be). set (y := fadd (fconnect (lo, hi) p1 p2) p1) in *.
    assert (E20 : bpow radix2 21 = 2 * bpow radix2 20) by (change 21%Z with (20 + 1)%Z; apply pow_succ). assert (E21 : bpow radix2 22 = 2 * bpow radix2 21) by (change 22%Z with (21 + 1)%Z; apply pow_succ).
    assert (E22 : bpow radix2 23 = 2 * bpow radix2 22) by (change 23%Z with (22 + 1)%Z; apply pow_succ). pose proof (bpow_gt_0 radix2 20) as P20.
    assert (B : Rabs (val p2 - val y) <= bpow radix2 23) by (rewrite abs_le in *; lra).
    destruct (fsub_val p2 y 23 ltac:(lia) F2 Fy B) as (Fz & Vz). pose proof (rnd_err _ 23 ltac:(lia) B) as Ez. rewrite <- Vz in Ez. change (23 - 54)%Z with (-33 + 1 + 1)%Z in Ez. rewrite !pow_succ in Ez.
    destruct (np_mod_congr _ _ 21 Fz Fs Ps ltac:(lia)) as (Fd & Rd & j' & e' & Ed & Be'). change (21 - 54)%Z with (-33)%Z in Be'. unfold d, fdelta. cbn [fst snd]. set (m := np_mod (fsub p2 y) s) in *.
    assert (Bm : Rabs (val s - val m) <= bpow radix2 21) by (rewrite abs_le; lra). destruct (fsub_val s m 21 ltac:(lia) Fs Fd Bm) as (Fn & Vn).
    destruct (fmin_val (fsub s m) m Fn Fd) as (Fmn & Vmn). split; auto. rewrite Vmn.
    replace (5 * bpow radix2 (-32)) with (10 * bpow radix2 (-33)) by (change (-32)%Z with (-33 + 1)%Z; rewrite pow_succ; ring).
    assert (Rn : 0 <= val (fsub s m)) by (rewrite Vn; apply rnd_pos; lra). split; [apply Rmin_glb; lra|].
    (** [m] is a multiple of the period up to the errors *)
    assert (C : exists k err, val m = IZR k * val s + err /\ Rabs err <= 10 * bpow radix2 (-33)).
    { exists (j' - j)%Z, (val (fsub p2 y) - (val p2 - val y) - e + e'). split; [rewrite minus_IZR; lra|]. rewrite abs_le in *. lra. }
    destruct C as (k & err & Ek & Bk). destruct (Z_le_gt_dec k 0) as [Hk|Hk].
    - apply Rle_trans with (val m); [apply Rmin_r|]. rewrite Ek. apply IZR_le in Hk. rewrite abs_le in Bk. nra.
    - apply Rle_trans with (val (fsub s m)); [apply Rmin_l|]. rewrite Vn. rewrite <- (rnd_id (10 * bpow radix2 (-33))).
      + apply rnd_le. rewrite Ek. assert (H1 : (1 <= k)%Z) by lia. apply IZR_le in H1. rewrite abs_le in Bk. nra.
      + apply (dyadic_format 10 (-33)); lia. Qed.
End Coordinate.

(** the norm of a vector with small coordinates *)
Lemma square_small x : fin x -> 0 <= val x <= 5 * bpow radix2 (-32) -> fin (fmul x x) /\ 0 <= val (fmul x x) <= 25 * bpow radix2 (-64).
Proof. intros F V. assert (Sq : 0 <= val x * val x <= 25 * bpow radix2 (-64)).
  { replace (25 * bpow radix2 (-64)) with ((5 * bpow radix2 (-32)) * (5 * bpow radix2 (-32))); [nra|]. change (-64)%Z with (-32 + -32)%Z. rewrite bpow_plus. ring. }
  assert (B : Rabs (val x * val x) <= bpow radix2 (-59)). { rewrite Rabs_pos_eq by lra. change (-59)%Z with (5 + -64)%Z. rewrite bpow_plus. change (bpow radix2 5) with 32. pose proof (bpow_gt_0 radix2 (-64)). lra. }
  destruct (fmul_val x x (-59) ltac:(lia) F F B) as (Fm & Vm). split; auto. rewrite Vm. split; [apply rnd_pos; lra|]. rewrite <- (rnd_id (25 * bpow radix2 (-64))) by (apply (dyadic_format 25); lia). apply rnd_le. lra. Qed.
Lemma sum_small : forall l a n, fin a -> (0 <= n)%Z -> (n + Z.of_nat (length l) <= 64)%Z -> 0 <= val a <= IZR (25 * n) * bpow radix2 (-64) ->
  Forall (fun x => fin x /\ 0 <= val x <= 25 * bpow radix2 (-64)) l ->
  fin (fold_left fadd l a) /\ 0 <= val (fold_left fadd l a) <= IZR (25 * (n + Z.of_nat (length l))) * bpow radix2 (-64).
Proof. induction l as [|x l IH]; intros a n Fa Hn Hl Va H; cbn [fold_left length].
  - split; auto. replace (n + Z.of_nat 0)%Z with n by lia. auto.
  - inversion H as [|? ? (Fx & Vx) H']; subst. cbn [length] in Hl. pose proof (bpow_gt_0 radix2 (-64)) as P.
    assert (Sm : 0 <= val a + val x <= IZR (25 * (n + 1)) * bpow radix2 (-64)) by (rewrite mult_IZR, plus_IZR; rewrite mult_IZR in Va; lra).
    assert (B : Rabs (val a + val x) <= bpow radix2 (-53)).
    { rewrite Rabs_pos_eq by lra. eapply Rle_trans; [apply Sm|]. change (-53)%Z with (11 + -64)%Z. rewrite bpow_plus. apply Rmult_le_compat_r; [lra|]. change (bpow radix2 11) with (IZR 2048). apply IZR_le. lia. }
    destruct (fadd_val a x (-53) ltac:(lia) Fa Fx B) as (Fs & Vs). replace (n + Z.of_nat (S (length l)))%Z with (n + 1 + Z.of_nat (length l))%Z by lia.
    apply IH; auto; try lia. rewrite Vs. split; [apply rnd_pos; lra|]. rewrite <- (rnd_id (IZR (25 * (n + 1)) * bpow radix2 (-64))) by (apply dyadic_format; lia). apply rnd_le. lra. Qed.
Lemma norm_small l : (length l <= 64)%nat -> Forall (fun x => fin x /\ 0 <= val x <= 5 * bpow radix2 (-32)) l -> fin (fnorm l) /\ val (fnorm l) <= 40 * bpow radix2 (-32).
Proof. intros Ll H. unfold fnorm. destruct (sum_small (map (fun x => fmul x x) l) (B754_zero false) 0) as (Fs & Vs).
  - reflexivity. - lia. - rewrite map_length. lia. - cbn. lra.
  - apply Forall_map. eapply Forall_impl; [|exact H]. intros x (Fx & Vx). apply square_small; auto.
  - rewrite map_length in Vs. set (sm := fold_left fadd _ _) in *. pose proof (Bsqrt_correct 53 1024 _ _ mode_NE sm) as (V & F & _).
    assert (Fq : fin (fsqrt sm)).
    { unfold fin, fsqrt. rewrite F. destruct sm as [| | |[] m e Hm]; auto; try discriminate Fs. exfalso. destruct Vs as (Vs & _). cbn in Vs. unfold F2R in Vs. cbn [Fnum Fexp] in Vs.
      pose proof (bpow_gt_0 radix2 e). assert (IZR (Z.neg m) < 0) by (apply IZR_lt; reflexivity). cbn [SpecFloat.cond_Zopp Z.opp] in Vs. nra. }
    split; auto. unfold fsqrt. rewrite V. change (rnd (sqrt (val sm)) <= 40 * bpow radix2 (-32)). rewrite <- (rnd_id (40 * bpow radix2 (-32))) by (apply (dyadic_format 40); lia). apply rnd_le.
    rewrite <- (sqrt_square (40 * bpow radix2 (-32))) by (pose proof (bpow_gt_0 radix2 (-32)); lra). apply sqrt_le_1_alt.
    eapply Rle_trans; [apply Vs|]. replace (40 * bpow radix2 (-32) * (40 * bpow radix2 (-32))) with (1600 * bpow radix2 (-64)) by (change (-64)%Z with (-32 + -32)%Z; rewrite bpow_plus; ring).
    apply Rmult_le_compat_r; [apply bpow_ge_0|]. apply IZR_le. lia. Qed.

(** a coordinate of the box, with both positions *)
Definition moderate (b : double * double) (p1 p2 : double) : Prop :=
  (fin (fst b) /\ fin (snd b) /\ fin p1 /\ fin p2) /\ val (fst b) < val (snd b) /\
  Rabs (val (fst b)) <= bpow radix2 20 /\ Rabs (val (snd b)) <= bpow radix2 20 /\ Rabs (val p1) <= bpow radix2 20 /\ Rabs (val p2) <= bpow radix2 20.
Lemma moved_deltas : forall boxes p q, length p = length boxes -> length q = length boxes -> Forall (fun x => moderate (fst (fst x)) (snd (fst x)) (snd x)) (combine (combine boxes p) q) ->
  Forall (fun x => fin x /\ 0 <= val x <= 5 * bpow radix2 (-32))
    (per_coordinate fdelta boxes (map (fun x => fadd (fst x) (snd x)) (combine (per_coordinate fconnect boxes p q) p)) q).
Proof. unfold per_coordinate. induction boxes as [|b boxes IH]; intros [|x p] [|y q] Lp Lq H; cbn in *; try discriminate; [constructor|]. inversion H as [|? ? M H']; subst. constructor; [|apply IH; auto].
  cbn [fst snd] in *. destruct M as ((A1 & A2 & A3 & A4) & A5 & A6 & A7 & A8 & A9). destruct b as [lo hi]. cbn [fst snd] in *. apply delta_small; auto. Qed.
Lemma assertion_holds boxes p q : length p = length boxes -> length q = length boxes -> (length boxes <= 64)%nat ->
  Forall (fun x => moderate (fst (fst x)) (snd (fst x)) (snd x)) (combine (combine boxes p) q) ->
  fconnecting_vector boxes p q = Ok (per_coordinate fconnect boxes p q).
Proof. intros Lp Lq Lb H. unfold fconnecting_vector. pose proof (moved_deltas boxes p q Lp Lq H) as D. match type of D with Forall _ ?l => assert (Ll : (length l <= 64)%nat) by (unfold per_coordinate; rewrite map_length, !combine_length; lia); destruct (norm_small l Ll D) as (Fn & Vn) end.
  assert (T : fin tolerance /\ 40 * bpow radix2 (-32) < val tolerance).
  { destruct (of_dyadic_val 6044629098073146 (-79) ltac:(lia) ltac:(lia)) as (F & V). split; [exact F|]. unfold tolerance. rewrite V. change (bpow radix2 (-32)) with (/ 4294967296). change (bpow radix2 (-79)) with (/ 604462909807314587353088). lra. }
  destruct T as (Ft & Vt). unfold fdistance. unfold flt. rewrite Bltb_correct by auto. rewrite Rlt_bool_true by lra. reflexivity. Qed.
