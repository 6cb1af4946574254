(** Numbers of the line evaluation in double precision: weights stay non-negative, and the norm of a
    connecting vector is the distance. *)
From Coq Require Import ZArith Reals Psatz List.
From Flocq Require Import Core BinarySingleNaN.
From Verif Require Import Base BaseFacts CoordSys Float FloatFacts FloatVector FloatVectorFacts FloatMin FloatCell SpecFloatCell FloatCellNum FloatCellFacts PropFloatCell FloatDistNum FloatAverage Graph Paths ShortestPath Ballistic FloatCluster FloatIdentify FloatLine.
From Coq Require Import Lra.
Import ListNotations.
Open Scope list_scope.
Open Scope R_scope.

(** not negative, and not NaN *)
Definition nonneg (w : double) : Prop := dle fzero w = true.
Lemma nonneg_cases (w : double) : nonneg w <-> w = B754_infinity false \/ (fin w /\ 0 <= val w).
Proof. unfold nonneg, dle. destruct (is_finite w) eqn:F.
  - change (fin w) in F. rewrite Bleb_correct by auto. change (B2R fzero) with 0. split.
    + intros H. right. split; auto. pose proof (Rle_bool_spec 0 (val w)) as X. rewrite H in X. inversion X; auto.
    + intros [->|(_ & H)]; [discriminate|]. apply Rle_bool_true. exact H.
  - destruct w as [s|[]| |s m e H]; try discriminate; cbn; (split; [intros; try discriminate|intros [X|(X & _)]; try discriminate; auto]). left; auto. Qed.
Lemma finite_nonneg_sign (w : double) : fin w -> 0 <= val w -> Bsign w = false \/ val w = 0.
Proof. intros F H. destruct w as [s|s| |[] m e P]; cbn; auto; try discriminate F. left. exfalso. cbn in H. unfold F2R in H. cbn [Fnum Fexp] in H. pose proof (bpow_gt_0 radix2 e). assert (IZR (Z.neg m) < 0) by (apply IZR_lt; reflexivity). cbn [SpecFloat.cond_Zopp Z.opp] in H. nra. Qed.
Lemma overflow_inf (x : double) s : B2SF x = binary_overflow 53 1024 mode_NE s -> x = B754_infinity s.
Proof. intros H. apply B2SF_inj. rewrite H. reflexivity. Qed.
Lemma round_pos x : 0 <= x -> 0 <= round radix2 (SpecFloat.fexp 53 1024) (round_mode mode_NE) x.
Proof. intros H. change (0 <= rnd x). apply rnd_pos. exact H. Qed.
Lemma fin_or_inf (x : double) : nonneg x -> x = B754_infinity false \/ (fin x /\ 0 <= val x). Proof. apply nonneg_cases. Qed.

Lemma nonneg_add x y : nonneg x -> nonneg y -> nonneg (fadd x y).
Proof. intros Hx Hy. destruct (fin_or_inf x Hx) as [->|(Fx & Vx)].
  - destruct (fin_or_inf y Hy) as [->|(Fy & Vy)]; [reflexivity|]. destruct y as [| | |]; try discriminate Fy; reflexivity.
  - destruct (fin_or_inf y Hy) as [->|(Fy & Vy)]; [destruct x as [| | |]; try discriminate Fx; reflexivity|].
    apply nonneg_cases. pose proof (Bplus_correct 53 1024 _ _ mode_NE x y Fx Fy) as C. destruct (Rlt_bool _ _) eqn:L in C.
    + destruct C as (V & F & _). right. split; [exact F|]. unfold fadd. rewrite V. apply round_pos. lra.
    + destruct C as (O1 & O2). left. apply overflow_inf in O1. destruct (finite_nonneg_sign x Fx Vx) as [S|Z]; [rewrite S in O1; exact O1|]. destruct (finite_nonneg_sign y Fy Vy) as [S|Z']; [rewrite O2, S in O1; exact O1|].
      exfalso. rewrite Z, Z', Rplus_0_r, round_0 in L by apply valid_rnd_round_mode. rewrite Rabs_R0 in L. rewrite Rlt_bool_true in L; [discriminate|]. apply bpow_gt_0. Qed.
Lemma nonneg_mul x y : fin x -> 0 < val x -> nonneg y -> nonneg (fmul x y).
Proof. intros Fx Vx Hy. destruct (finite_nonneg_sign x Fx ltac:(lra)) as [Sx|Z]; [|lra]. destruct (fin_or_inf y Hy) as [->|(Fy & Vy)].
  - destruct x as [| | |[] m e P]; try discriminate Fx; try discriminate Sx; [cbn in Vx; lra|reflexivity].
  - apply nonneg_cases. pose proof (Bmult_correct 53 1024 _ _ mode_NE x y) as C. destruct (Rlt_bool _ _) eqn:L in C.
    + destruct C as (V & F & _). change (is_finite x = true) in Fx. change (is_finite y = true) in Fy. rewrite Fx, Fy in F. right. split; [exact F|]. unfold fmul. rewrite V. apply round_pos. apply Rmult_le_pos; lra.
    + left. apply overflow_inf in C. rewrite Sx in C. destruct (finite_nonneg_sign y Fy Vy) as [S|Z']; [rewrite S in C; exact C|].
      exfalso. rewrite Z', Rmult_0_r, round_0 in L by apply valid_rnd_round_mode. rewrite Rabs_R0 in L. rewrite Rlt_bool_true in L; [discriminate|]. apply bpow_gt_0. Qed.
Lemma nonneg_mul_r x y : fin x -> 0 < val x -> nonneg y -> nonneg (fmul y x).
Proof. intros Fx Vx Hy. destruct (finite_nonneg_sign x Fx ltac:(lra)) as [Sx|Z]; [|lra]. destruct (fin_or_inf y Hy) as [->|(Fy & Vy)].
  - destruct x as [| | |[] m e P]; try discriminate Fx; try discriminate Sx; [cbn in Vx; lra|reflexivity].
  - apply nonneg_cases. pose proof (Bmult_correct 53 1024 _ _ mode_NE y x) as C. destruct (Rlt_bool _ _) eqn:L in C.
    + destruct C as (V & F & _). change (is_finite x = true) in Fx. change (is_finite y = true) in Fy. rewrite Fx, Fy in F. right. split; [exact F|]. unfold fmul. rewrite V. apply round_pos. apply Rmult_le_pos; lra.
    + left. apply overflow_inf in C. rewrite Sx in C. destruct (finite_nonneg_sign y Fy Vy) as [S|Z']; [rewrite S in C; exact C|].
      exfalso. rewrite Z', Rmult_0_l, round_0 in L by apply valid_rnd_round_mode. rewrite Rabs_R0 in L. rewrite Rlt_bool_true in L; [discriminate|]. apply bpow_gt_0. Qed.
Lemma nonneg_div x y : nonneg x -> fin y -> 0 < val y -> nonneg (fdiv x y).
Proof. intros Hx Fy Vy. destruct (finite_nonneg_sign y Fy ltac:(lra)) as [Sy|Z]; [|lra]. destruct (fin_or_inf x Hx) as [->|(Fx & Vx)].
  - destruct y as [| | |[] m e P]; try discriminate Fy; try discriminate Sy; [cbn in Vy; lra|reflexivity].
  - apply nonneg_cases. pose proof (Bdiv_correct 53 1024 _ _ mode_NE x y ltac:(apply Rgt_not_eq; exact Vy)) as C. destruct (Rlt_bool _ _) eqn:L in C.
    + destruct C as (V & F & _). change (is_finite x = true) in Fx. rewrite Fx in F. right. split; [exact F|]. unfold fdiv. rewrite V. apply round_pos. apply Rmult_le_pos; [lra|]. left. apply Rinv_0_lt_compat. exact Vy.
    + left. apply overflow_inf in C. rewrite Sy in C. destruct (finite_nonneg_sign x Fx Vx) as [S|Z']; [rewrite S in C; exact C|].
      exfalso. unfold Rdiv in L. rewrite Z', Rmult_0_l, round_0 in L by apply valid_rnd_round_mode. rewrite Rabs_R0 in L. rewrite Rlt_bool_true in L; [discriminate|]. apply bpow_gt_0. Qed.

(** squares do not see the sign *)
Lemma same_square (a b : double) : fin a -> fin b -> Rabs (val a) = Rabs (val b) -> fmul a a = fmul b b.
Proof. intros Fa Fb E. assert (Es : val a * val a = val b * val b). { rewrite <- (Rabs_right (val a * val a)), <- (Rabs_right (val b * val b)) by (apply Rle_ge; apply Rle_0_sqr). rewrite !Rabs_mult, E. reflexivity. }
  pose proof (Bmult_correct 53 1024 _ _ mode_NE a a) as Ca. pose proof (Bmult_correct 53 1024 _ _ mode_NE b b) as Cb. change (B2R a) with (val a) in Ca. change (B2R b) with (val b) in Cb. rewrite Es in Ca. destruct (Rlt_bool _ _) in Ca, Cb.
  - destruct Ca as (V1 & F1 & S1), Cb as (V2 & F2 & S2). change (is_finite a = true) in Fa. change (is_finite b = true) in Fb. rewrite Fa in F1. rewrite Fb in F2. cbn in F1, F2. unfold fmul.
    assert (Na : forall x : double, is_finite x = true -> is_nan x = false) by (intros [| | |]; intros; auto; discriminate). specialize (S1 (Na _ F1)). specialize (S2 (Na _ F2)). rewrite xorb_nilpotent in S1, S2. apply B2R_Bsign_inj; auto; congruence.
  - rewrite xorb_nilpotent in Ca, Cb. apply B2SF_inj. unfold fmul. congruence. Qed.

(** ** connecting vectors *)
Lemma connect_delta b x y : good_box b -> good_coord b x -> good_coord b y -> fin (fconnect b x y) /\ fin (fdelta b x y) /\ Rabs (val (fconnect b x y)) = Rabs (val (fdelta b x y)).
Proof. intros Gb (Fx & Bx) (Fy & By). set (s := val (fsize (fst b) (snd b))) in *. change (fbox_size b) with s in Bx, By. destruct (size_ok b Gb) as (Fs & Ls & Us). pose proof (s_pos b Gb) as Ps. fold s in Bx, By, Ls, Us, Ps.
  assert (B : Rabs (val y - val x) <= pw 11 * s) by (change 11%Z with (10 + 1)%Z; rewrite pow_succ; rewrite abs_le in *; lra).
  destruct (diff_val b Gb y x Fy Fx B) as (Fa & _). unfold fdelta, fconnect. set (S := fsize (fst b) (snd b)) in *. cbv zeta. set (a := fsub y x) in *.
  destruct (np_mod_val a S Fa Fs Ps) as (Fm & _ & Rm & _). set (m := np_mod a S) in *. fold s in Rm.
  assert (Bm : Rabs (s - val m) <= pw 401) by (rewrite abs_le; lra). destruct (fsub_val S m 401 ltac:(lia) Fs Fm Bm) as (Fn & Vn). fold s in Vn.
  assert (Bm' : Rabs (val m - s) <= pw 401) by (rewrite abs_le in *; lra). destruct (fsub_val m S 401 ltac:(lia) Fm Fs Bm') as (Fn' & Vn'). fold s in Vn'.
  assert (Eo : val (fsub m S) = - val (fsub S m)). { rewrite Vn, Vn'. replace (val m - s) with (- (s - val m)) by ring. unfold rnd. apply round_NE_opp. }
  destruct (fmin_val (fsub S m) m Fn Fm) as (Fd & Vd). rewrite Vd. set (n := fsub S m) in *. set (n' := fsub m S) in *.
  assert (Fo : fin (fopp n')) by (unfold fin, fopp; rewrite is_finite_Bopp; exact Fn'). assert (Vo : val (fopp n') = val n) by (unfold fopp; rewrite B2R_Bopp; lra).
  assert (Rn : 0 <= val n) by (rewrite Vn; apply rnd_pos; lra). split; [|split; auto].
  - destruct (flt (fopp n') m); auto.
  - unfold flt. rewrite Bltb_correct by auto. change (B2R (fopp n')) with (val (fopp n')). rewrite Vo. destruct (Rlt_bool_spec (val n) (val m)) as [H|H].
    + rewrite Rmin_left by lra. rewrite Eo. apply Rabs_Ropp.
    + rewrite Rmin_right by lra. reflexivity. Qed.

Lemma vector_norm boxes p : Forall good_box boxes -> good_position boxes p -> forall q, good_position boxes q ->
  map (fun x => fmul x x) (per_coordinate fconnect boxes p q) = map (fun x => fmul x x) (per_coordinate fdelta boxes p q) /\ Forall (fun x => fin x) (per_coordinate fconnect boxes p q).
Proof. intros Gb Hp. induction Hp as [|b x boxes p Hx Hp IH]; intros q Hq; inversion Hq as [|? y ? q' Hy Hq']; subst; [split; [reflexivity|constructor]|].
  destruct (IH (Forall_inv_tail Gb) q' Hq') as (E & F). destruct (connect_delta b x y (Forall_inv Gb) Hx Hy) as (Fc & Fd & Ec). unfold per_coordinate in *. cbn [combine map fst snd]. split; [|constructor; auto].
  f_equal; [apply same_square; auto|exact E]. Qed.

(** positions and boxes as they come out of a search, not too large for [connecting_vector] *)
Section Vectors.
  Variables (per : bool) (boxes : list fbox).
  Hypothesis Gb : Forall good_box boxes.
  Hypothesis Lb : (length boxes <= 64)%nat.
  Hypothesis Hb : Forall (fun b => Rabs (B2R (fst b)) <= bpow radix2 20 /\ Rabs (B2R (snd b)) <= bpow radix2 20) boxes.
  Definition moderate_pos (p : fpoint) : Prop := good_position boxes p /\ Forall (fun x => Rabs (B2R x) <= bpow radix2 20) p.
  Lemma vector_dist p q : moderate_pos p -> moderate_pos q -> exists v, fvector per boxes p q = Ok v /\ length v = length boxes /\ Forall (fun x => fin x) v /\ fnorm v = fdist per boxes p q.
  Proof. intros (Gp & Mp) (Gq & Mq). pose proof (forall2_len _ _ _ Gp) as Lp. pose proof (forall2_len _ _ _ Gq) as Lq. unfold fvector, fdist. destruct per.
    - exists (per_coordinate fconnect boxes p q). split.
      + apply assertion_holds; auto. apply (moderate_pair boxes (bpow radix2 20) [p; q]); auto using Rle_refl; [left; reflexivity|right; left; reflexivity].
      + split; [apply per_coordinate_length; auto|]. destruct (vector_norm boxes p Gb Gp q Gq) as (E & F). split; auto. unfold fdistance, fnorm. rewrite E. reflexivity.
    - exists (map2 fsub q p). split; auto. split; [rewrite map2_length; congruence|]. split; [|reflexivity].
      pose proof (deltas_bound false boxes q p Gb Gq Gp) as D. unfold PropFloatCell.deltas in D. eapply Forall_impl; [|exact D]. intros x (F & _). exact F. Qed.
End Vectors.
