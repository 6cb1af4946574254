(** Facts about the double precision model. *)
From Coq Require Import ZArith Reals Psatz.
From Flocq Require Import Core BinarySingleNaN Plus_error Div_sqrt_error Relative.
From Verif Require Import Float.
From Coq Require Import Lra.
Open Scope R_scope.

Notation FE := (SpecFloat.fexp 53 1024).
Notation dformat := (generic_format radix2 (SpecFloat.fexp 53 1024)).
Definition rnd (x : R) : R := round radix2 FE ZnearestE x.
Notation val := (@B2R 53 1024).
Definition fin (x : double) : Prop := is_finite x = true.

Lemma FE_flt : FE = FLT_exp (-1074) 53.
Proof. reflexivity. Qed.
Lemma val_format x : dformat (val x).
Proof. apply generic_format_B2R. Qed.
#[global] Instance FE_valid : Valid_exp FE.
Proof. rewrite FE_flt. apply FLT_exp_valid. reflexivity. Qed.
#[global] Instance FE_mono : Monotone_exp FE.
Proof. rewrite FE_flt. apply FLT_exp_monotone. Qed.
Lemma rnd_le x y : x <= y -> rnd x <= rnd y.
Proof. apply round_le; apply _. Qed.
Lemma rnd_id x : dformat x -> rnd x = x.
Proof. apply round_generic; apply _. Qed.
Lemma rnd_format x : dformat (rnd x).
Proof. apply generic_format_round; apply _. Qed.
Lemma rnd_0 : rnd 0 = 0.
Proof. apply round_0; apply _. Qed.
Lemma rnd_pos x : 0 <= x -> 0 <= rnd x.
Proof. intros H. rewrite <- rnd_0. apply rnd_le; auto. Qed.
Lemma rnd_neg x : x <= 0 -> rnd x <= 0.
Proof. intros H. rewrite <- rnd_0. apply rnd_le; auto. Qed.
Lemma pow_format e : (-1074 <= e)%Z -> dformat (bpow radix2 e).
Proof. intros H. apply generic_format_bpow. rewrite FE_flt. unfold FLT_exp. lia. Qed.
Lemma dyadic_format m e : (-1074 <= e)%Z -> (Z.abs m <= 2 ^ 53)%Z -> dformat (IZR m * bpow radix2 e).
Proof. intros He Hm. destruct (Z.eq_dec (Z.abs m) (2 ^ 53)) as [E|N].
  - assert (X : dformat (bpow radix2 (53 + e))) by (apply pow_format; lia).
    destruct (Zabs_spec m) as [[_ A]|[_ A]].
    + replace m with (2 ^ 53)%Z by lia. rewrite bpow_plus in X. exact X.
    + replace m with (- 2 ^ 53)%Z by lia. rewrite opp_IZR. rewrite bpow_plus in X. replace (- IZR (2 ^ 53) * bpow radix2 e) with (- (IZR (2 ^ 53) * bpow radix2 e)) by ring. apply generic_format_opp. exact X.
  - rewrite FE_flt. apply generic_format_FLT. exists (Float radix2 m e); cbn [Fnum Fexp]; auto. change (Z.abs m < 2 ^ 53)%Z. lia. Qed.
Lemma int_format n : (Z.abs n <= 2 ^ 53)%Z -> dformat (IZR n).
Proof. intros H. replace (IZR n) with (IZR n * bpow radix2 0) by (cbn; ring). apply dyadic_format; lia. Qed.

(** rounding is monotone, so it stays within a power of two *)
Lemma rnd_abs_le x e : (-1074 <= e)%Z -> Rabs x <= bpow radix2 e -> Rabs (rnd x) <= bpow radix2 e.
Proof. intros He H. apply abs_round_le_generic; auto using pow_format; apply _. Qed.
Lemma no_overflow x e : (-1074 <= e)%Z -> (e < 1024)%Z -> Rabs x <= bpow radix2 e -> Rlt_bool (Rabs (round radix2 FE (round_mode mode_NE) x)) (bpow radix2 1024) = true.
Proof. intros He He' H. apply Rlt_bool_true. eapply Rle_lt_trans; [apply (rnd_abs_le x e); auto|]. apply bpow_lt; auto. Qed.

Section Ops.
  Variables (x y : double) (e : Z).
  Hypotheses (He : (-1074 <= e < 1024)%Z).
  Lemma fadd_val : fin x -> fin y -> Rabs (val x + val y) <= bpow radix2 e -> fin (fadd x y) /\ val (fadd x y) = rnd (val x + val y).
  Proof. intros X Y B. pose proof (Bplus_correct 53 1024 _ _ mode_NE x y X Y) as C. rewrite (no_overflow _ e) in C by (auto; lia). destruct C as (A & F & _). split; auto. Qed.
  Lemma fsub_val : fin x -> fin y -> Rabs (val x - val y) <= bpow radix2 e -> fin (fsub x y) /\ val (fsub x y) = rnd (val x - val y).
  Proof. intros X Y B. pose proof (Bminus_correct 53 1024 _ _ mode_NE x y X Y) as C. rewrite (no_overflow _ e) in C by (auto; lia). destruct C as (A & F & _). split; auto. Qed.
  Lemma fmul_val : fin x -> fin y -> Rabs (val x * val y) <= bpow radix2 e -> fin (fmul x y) /\ val (fmul x y) = rnd (val x * val y).
  Proof. intros X Y B. pose proof (Bmult_correct 53 1024 _ _ mode_NE x y) as C. rewrite (no_overflow _ e) in C by (auto; lia). destruct C as (A & F & _). split; auto. unfold fin in *. unfold fmul. rewrite F, X, Y. reflexivity. Qed.
  Lemma fdiv_val : fin x -> fin y -> val y <> 0 -> Rabs (val x / val y) <= bpow radix2 e -> fin (fdiv x y) /\ val (fdiv x y) = rnd (val x / val y).
  Proof. intros X Y Ny B. pose proof (Bdiv_correct 53 1024 _ _ mode_NE x y Ny) as C. rewrite (no_overflow _ e) in C by (auto; lia). destruct C as (A & F & _). split; auto. unfold fin in *. unfold fdiv. rewrite F, X. reflexivity. Qed.
End Ops.

Lemma of_dyadic_val m e : (-1074 <= e < 900)%Z -> (Z.abs m <= 2 ^ 53)%Z -> fin (of_dyadic m e) /\ val (of_dyadic m e) = IZR m * bpow radix2 e.
Proof. intros He Hm. pose proof (binary_normalize_correct 53 1024 _ _ mode_NE m e false) as C. cbn zeta in C.
  unfold F2R in C. cbn [Fnum Fexp] in C. pose proof (dyadic_format m e ltac:(lia) Hm) as Fm.
  rewrite (no_overflow _ (53 + e)) in C; try lia.
  - destruct C as (A & F & _). split; auto. unfold of_dyadic. rewrite A. apply rnd_id. auto.
  - rewrite Rabs_mult, <- abs_IZR, bpow_plus. rewrite (Rabs_pos_eq (bpow radix2 e)) by apply bpow_ge_0. apply Rmult_le_compat_r; [apply bpow_ge_0|]. change (bpow radix2 53) with (IZR (2 ^ 53)). apply IZR_le. auto. Qed.
Lemma of_int_val n : (Z.abs n <= 2 ^ 53)%Z -> fin (of_int n) /\ val (of_int n) = IZR n.
Proof. intros H. destruct (of_dyadic_val n 0 ltac:(lia) H) as (A & B). split; auto. unfold of_int. rewrite B. cbn. ring. Qed.
Lemma fone_val : fin fone /\ val fone = 1.
Proof. apply of_int_val. lia. Qed.

(** ** fmod is exact *)
Lemma finite_shift s m e e' H : (e' <= e)%Z -> val (B754_finite s m e H : double) = IZR (cond_Zopp s (Zpos m * 2 ^ (e - e'))) * bpow radix2 e'.
Proof. intros L. unfold B2R, F2R. cbn [Fnum Fexp]. assert (E : cond_Zopp s (Z.pos m * 2 ^ (e - e')) = (cond_Zopp s (Z.pos m) * 2 ^ (e - e'))%Z) by (destruct s; cbn [cond_Zopp]; lia).
  rewrite E, mult_IZR, Rmult_assoc. f_equal. change (2 ^ (e - e'))%Z with (Zpower radix2 (e - e')). rewrite IZR_Zpower by lia. rewrite <- bpow_plus. f_equal. lia. Qed.
Lemma fmod_val x y : fin x -> fin y -> val y <> 0 -> fin (fmod x y) /\ val (fmod x y) = val x - IZR (Ztrunc (val x / val y)) * val y.
Proof. intros X Y Ny. destruct y as [sy|sy| |sy my ey Hy]; try (cbn in Ny; congruence).
  destruct x as [sx|sx| |sx mx ex Hx]; [|discriminate X|discriminate X|].
  - split; [reflexivity|]. change (fmod (B754_zero sx) (B754_finite sy my ey Hy)) with (B754_zero sx : double). change (val (B754_zero sx)) with 0. unfold Rdiv. rewrite Rmult_0_l. change (Ztrunc 0) with (Ztrunc (IZR 0)). rewrite Ztrunc_IZR. ring.
  - set (e := Z.min ex ey). set (x := B754_finite sx mx ex Hx : double) in *. set (y := B754_finite sy my ey Hy : double) in *.
    set (a := cond_Zopp sx (Zpos mx * 2 ^ (ex - e))). set (b := cond_Zopp sy (Zpos my * 2 ^ (ey - e))).
    assert (Ea : val x = IZR a * bpow radix2 e) by (apply finite_shift; unfold e; lia). assert (Eb : val y = IZR b * bpow radix2 e) by (apply finite_shift; unfold e; lia).
    pose proof (bpow_gt_0 radix2 e) as Pe. assert (Nb : b <> 0%Z) by (intros ->; apply Ny; rewrite Eb; ring).
    assert (Q : val x / val y = IZR a / IZR b). { rewrite Ea, Eb. assert (NR : IZR b <> 0) by (apply not_0_IZR; auto). field. split; lra. }
    rewrite Q, Ztrunc_div by auto. set (q := Z.quot a b).
    set (b' := (Zpos my * 2 ^ (ey - e))%Z). assert (Rm : Z.rem a b' = (a - q * b)%Z).
    { assert (R1 : Z.rem a b' = Z.rem a b) by (unfold b, b'; destruct sy; cbn [cond_Zopp]; [rewrite Z.rem_opp_r'|]; reflexivity). rewrite R1. pose proof (Z.quot_rem' a b). unfold q. lia. }
    assert (V : IZR (Z.rem a b') * bpow radix2 e = val x - IZR q * val y) by (rewrite Rm, minus_IZR, mult_IZR, Ea, Eb; ring).
    assert (Fv : dformat (val x - IZR q * val y)).
    { unfold q. rewrite <- Ztrunc_div by auto. rewrite <- Q. apply format_REM_ZR; try apply _; apply val_format. }
    pose proof (binary_normalize_correct 53 1024 _ _ mode_NE (Z.rem a b') e sx) as C. cbn zeta in C. unfold F2R in C. cbn [Fnum Fexp] in C. rewrite V in C.
    assert (Rb : Rabs (val x - IZR q * val y) <= Rabs (val x)).
    { rewrite <- V, Ea, !Rabs_mult. apply Rmult_le_compat_r; [apply Rabs_pos|]. rewrite <- !abs_IZR. apply IZR_le. 
      assert (Pb : (0 < b')%Z) by (unfold b'; assert (0 < 2 ^ (ey - e))%Z by (apply Z.pow_pos_nonneg; unfold e; lia); lia).
      rewrite <- Z.rem_abs by lia. rewrite (Z.abs_eq b') by lia. apply Z.rem_le; lia. }
    rewrite Rlt_bool_true in C.
    + destruct C as (A & F & _). split; [exact F|]. change (val (fmod x y) = val x - IZR q * val y). unfold fmod, x, y. fold e a b'. rewrite A. apply rnd_id. auto.
    + change (Rabs (rnd (val x - IZR q * val y)) < bpow radix2 1024). rewrite rnd_id by auto. eapply Rle_lt_trans; [exact Rb|]. apply abs_B2R_lt_emax. Qed.

Lemma fmod_range x y : 0 < y -> let m := x - IZR (Ztrunc (x / y)) * y in (0 <= x -> 0 <= m < y) /\ (x <= 0 -> - y < m <= 0).
Proof. intros Py m. assert (E : x = x / y * y) by (field; lra). split; intros Hx.
  - assert (Q : 0 <= x / y) by (apply Rmult_le_pos; [lra|left; apply Rinv_0_lt_compat; lra]). unfold m. rewrite Ztrunc_floor by auto.
    pose proof (Zfloor_lb (x / y)). pose proof (Zfloor_ub (x / y)). split; rewrite E at 1; nra.
  - assert (Q : x / y <= 0) by (pose proof (Rinv_0_lt_compat y Py); unfold Rdiv; nra). unfold m. rewrite Ztrunc_ceil by auto.
    pose proof (Zceil_ub (x / y)). pose proof (Zceil_lb (x / y)). split; rewrite E at 1; nra. Qed.

Lemma val_zero s : val (B754_zero s) = 0.
Proof. reflexivity. Qed.
(** numpy's remainder: the upper end can be reached, but only from below zero *)
Lemma np_mod_val x y : fin x -> fin y -> 0 < val y -> let m := val x - IZR (Ztrunc (val x / val y)) * val y in
  fin (np_mod x y) /\ val (np_mod x y) = (if Rlt_bool m 0 then rnd (m + val y) else m) /\ 0 <= val (np_mod x y) <= val y /\ (0 <= val x -> val (np_mod x y) < val y).
Proof. intros X Y Py m. destruct (fmod_val x y X Y ltac:(lra)) as (Fm & Vm). fold m in Vm. destruct (fmod_range (val x) (val y) Py) as (R1 & R2). cbv zeta in R1, R2. fold m in R1, R2.
  assert (Rm : - val y < m < val y) by (destruct (Rle_or_lt 0 (val x)); [specialize (R1 ltac:(lra)); lra|specialize (R2 ltac:(lra)); lra]).
  assert (Ly : flt y (B754_zero false) = false) by (unfold flt; rewrite Bltb_correct by auto; rewrite val_zero; apply Rlt_bool_false; lra).
  assert (G : fin (np_mod x y) /\ val (np_mod x y) = (if Rlt_bool m 0 then rnd (m + val y) else m)).
  { assert (Lm : flt (fmod x y) (B754_zero false) = Rlt_bool m 0) by (unfold flt; rewrite Bltb_correct by auto; rewrite val_zero, Vm; reflexivity).
    unfold np_mod. rewrite Ly. destruct (fmod x y) as [s|s| |s mm me Hm] eqn:Ef; [|discriminate Fm|discriminate Fm|].
    - split; [reflexivity|]. rewrite val_zero in *. rewrite Rlt_bool_false by lra. auto.
    - rewrite Lm. destruct (Rlt_bool_spec m 0) as [Hm0|Hm0]; cbn [Bool.eqb]; [|split; auto].
      pose proof (Bplus_correct 53 1024 _ _ mode_NE (B754_finite s mm me Hm) y Fm Y) as C. rewrite Vm in C. rewrite Rlt_bool_true in C.
      + destruct C as (A & F & _). split; [exact F|exact A].
      + change (Rabs (rnd (m + val y)) < bpow radix2 1024). rewrite Rabs_pos_eq by (apply rnd_pos; lra). apply Rle_lt_trans with (rnd (val y)); [apply rnd_le; lra|].
        rewrite rnd_id by apply val_format. rewrite <- (Rabs_pos_eq (val y)) by lra. apply abs_B2R_lt_emax. }
  destruct G as (G1 & G2). split; auto. split; auto. rewrite G2. destruct (Rlt_bool_spec m 0) as [Hm0|Hm0].
  - split; [split|].
    + apply rnd_pos. lra.
    + rewrite <- (rnd_id (val y)) at 2 by apply val_format. apply rnd_le. lra.
    + intros Hx. specialize (R1 Hx). lra.
  - split; [lra|]. intros _. lra. Qed.

(** ** The cell index *)
Lemma below_one x : dformat x -> x < 1 -> x <= 1 - bpow radix2 (-53).
Proof. intros F L. assert (F1 : dformat 1) by (apply (int_format 1); lia). pose proof (pred_ge_gt radix2 FE x 1 F F1 L) as H.
  assert (E : pred radix2 FE 1 = 1 - bpow radix2 (-53)) by (change 1 with (bpow radix2 0); rewrite pred_bpow; reflexivity). lra. Qed.
(** rounding [f * n] for [f < 1] does not reach [n] *)
Lemma mul_below n f : (1 <= n <= 2 ^ 53)%Z -> dformat f -> 0 <= f < 1 -> 0 <= rnd (f * IZR n) < IZR n.
Proof. intros Hn F (F0 & F1). assert (Nn : 1 <= IZR n) by (apply (IZR_le 1); lia). assert (Fn : dformat (IZR n)) by (apply int_format; lia).
  split; [apply rnd_pos; nra|]. apply Rle_lt_trans with (pred radix2 FE (IZR n)); [|apply pred_lt_id; lra].
  assert (Fp : dformat (pred radix2 FE (IZR n))) by (apply generic_format_pred; auto; apply _).
  apply round_N_le_midp; auto; try apply _. rewrite succ_pred by (auto; apply _). pose proof (below_one f F F1) as Lf.
  pose proof (pred_plus_ulp radix2 FE (IZR n) ltac:(lra) Fn) as Pu.
  assert (Hu : ulp radix2 FE (pred radix2 FE (IZR n)) <= bpow radix2 (-53) * 2 * pred radix2 FE (IZR n)).
  { set (p := pred radix2 FE (IZR n)) in *. assert (Pp : 1 - bpow radix2 (-53) <= p).
    { apply Rle_trans with (pred radix2 FE 1); [right; change 1 with (bpow radix2 0); rewrite pred_bpow; reflexivity|]. apply pred_le; auto; try apply _. apply (int_format 1); lia. }
    assert (Hb : bpow radix2 (-53) < 1 / 2) by (change (1 / 2) with (1 * / 2); rewrite Rmult_1_l; change (/ 2) with (bpow radix2 (-1)); apply bpow_lt; lia).
    rewrite ulp_neq_0 by lra. unfold cexp. destruct (mag radix2 p) as (k & Hk). cbn. specialize (Hk ltac:(lra)). rewrite Rabs_pos_eq in Hk by lra.
    assert (Kk : (0 <= k)%Z). { destruct (Z_lt_le_dec k 0) as [Lk|]; auto. exfalso. assert (bpow radix2 k <= bpow radix2 (-1)) by (apply bpow_le; lia). assert (E1 : bpow radix2 (-1) = / 2) by reflexivity. lra. }
    rewrite FE_flt. unfold FLT_exp. rewrite Z.max_l by lia. replace (k - 53)%Z with ((-53) + 1 + (k - 1))%Z by lia. rewrite (bpow_plus radix2 (-53 + 1) (k - 1)), (bpow_plus radix2 (-53) 1). change (bpow radix2 1) with 2. pose proof (bpow_gt_0 radix2 (-53)). apply Rmult_le_compat_l; [lra|]. apply Hk. }
  pose proof (bpow_gt_0 radix2 (-53)) as B0. pose proof (pred_lt_id radix2 FE (IZR n) ltac:(lra)) as Pl.
  revert Hu Pu Pl B0 Lf. generalize (ulp radix2 FE (pred radix2 FE (IZR n))) (pred radix2 FE (IZR n)) (bpow radix2 (-53)). intros U p b Hu Pu Pl B0 Lf.
  assert (H1 : f * IZR n <= (1 - b) * IZR n) by (apply Rmult_le_compat_r; lra). assert (H2 : b * p < b * IZR n) by (apply Rmult_lt_compat_l; lra). lra. Qed.

Lemma trunc_below x n : 0 <= x < IZR n -> (0 <= Ztrunc x < n)%Z.
Proof. intros (H0 & H1). rewrite Ztrunc_floor by auto. split; [apply Zfloor_lub; auto|]. apply lt_IZR. eapply Rle_lt_trans; [apply Zfloor_lb|auto]. Qed.
Lemma to_int_val x : fin x -> Rabs (val x) < bpow radix2 63 -> to_int x = Ztrunc (val x).
Proof. intros F B. unfold to_int. rewrite F. assert (E : Btrunc x = Ztrunc (val x)).
  { apply eq_IZR. rewrite (Btrunc_correct 53 1024 Hemax x). unfold round, F2R, scaled_mantissa, cexp, FIX_exp. cbn. rewrite !Rmult_1_r. reflexivity. }
  rewrite E. rewrite (proj2 (Z.ltb_lt (Z.abs (Ztrunc (val x))) (2 ^ 63))); [reflexivity|]. apply lt_IZR. rewrite abs_IZR. eapply Rle_lt_trans; [|exact B].
  rewrite <- abs_IZR, <- Ztrunc_abs. rewrite Ztrunc_floor by apply Rabs_pos. apply Zfloor_lb. Qed.
Lemma index_range n f : (1 <= n <= 2 ^ 53)%Z -> fin f -> 0 <= val f < 1 -> (0 <= fcell_index n f < n)%Z.
Proof. intros Hn F V. unfold fcell_index. destruct (of_int_val n ltac:(lia)) as (Fn & Vn). assert (Nn : 1 <= IZR n <= bpow radix2 53) by (split; [apply (IZR_le 1); lia|change (bpow radix2 53) with (IZR (2 ^ 53)); apply IZR_le; lia]).
  assert (Ab : Rabs (val f * val (of_int n)) <= bpow radix2 53) by (rewrite Vn, Rabs_pos_eq by nra; nra).
  destruct (fmul_val f (of_int n) 53 ltac:(lia) F Fn Ab) as (Fp & Vp). pose proof (mul_below n (val f) Hn (val_format f) V) as M. rewrite Vn in Vp.
  assert (Bb : bpow radix2 53 < bpow radix2 63) by (apply bpow_lt; lia).
  rewrite to_int_val; auto; [rewrite Vp; apply trunc_below; auto|]. rewrite Vp. rewrite Rabs_pos_eq by lra. lra. Qed.

Lemma rnd_near x g : dformat g -> Rabs (rnd x - x) <= Rabs (g - x).
Proof. intros F. destruct (round_N_pt radix2 FE (fun n => negb (Z.even n)) x) as (_ & H). apply H. auto. Qed.
Lemma rnd_half_le x : 0 < rnd x -> Rabs (rnd x - x) <= rnd x / 2.
Proof. intros P. pose proof (error_le_half_ulp_round radix2 FE (fun n => negb (Z.even n)) x) as H. fold (rnd x) in H.
  pose proof (ulp_le_id radix2 FE (rnd x) P (rnd_format x)). unfold rnd in *. lra. Qed.
Lemma rnd_double x : Rabs (rnd x) <= 2 * Rabs x.
Proof. pose proof (rnd_near x 0 (generic_format_0 _ _)) as H. replace (0 - x) with (- x) in H by ring. rewrite Rabs_Ropp in H.
  replace (rnd x) with ((rnd x - x) + x) by ring. eapply Rle_trans; [apply Rabs_triang|]. lra. Qed.

(** ** One coordinate of a periodic box *)
Section Box.
  Variables lo hi : double.
  Hypotheses (Flo : fin lo) (Fhi : fin hi) (L : val lo < val hi) (Blo : Rabs (val lo) <= bpow radix2 1000) (Bhi : Rabs (val hi) <= bpow radix2 1000).

  Lemma pow_succ e : bpow radix2 (e + 1) = 2 * bpow radix2 e.
  Proof. rewrite bpow_plus. change (bpow radix2 1) with 2. ring. Qed.
  Lemma size_val : fin (fsize lo hi) /\ val (fsize lo hi) = rnd (val hi - val lo) /\ 0 < val (fsize lo hi) <= bpow radix2 1001.
  Proof. assert (B : Rabs (val hi - val lo) <= bpow radix2 1001).
    { change 1001%Z with (1000 + 1)%Z. rewrite pow_succ. unfold Rminus. eapply Rle_trans; [apply Rabs_triang|]. rewrite Rabs_Ropp. lra. }
    destruct (fsub_val hi lo 1001 ltac:(lia) Fhi Flo B) as (F & V). split; auto. split; auto. unfold fsize. rewrite V. split.
    - assert (H : rnd (val hi - val lo) <> 0). { unfold rnd, Rminus. apply round_plus_neq_0; try apply _; [apply val_format|apply generic_format_opp, val_format|lra]. }
      pose proof (rnd_pos (val hi - val lo) ltac:(lra)). lra.
    - eapply Rle_trans; [apply Rle_abs|]. apply rnd_abs_le; [lia|auto]. Qed.

  Variable p : double.
  Hypotheses (Fp : fin p) (Bp : Rabs (val p) <= bpow radix2 1000).
  Notation s := (val (fsize lo hi)).

  (** the normalised position is at or above the lower limit, and not far above the upper one *)
  Lemma normalize_val : fin (fnormalize lo hi p) /\ val lo <= val (fnormalize lo hi p) <= rnd (s + val lo).
  Proof. destruct size_val as (Fs & Vs & Ps). assert (B : Rabs (val p - val lo) <= bpow radix2 1001).
    { change 1001%Z with (1000 + 1)%Z. rewrite pow_succ. unfold Rminus. eapply Rle_trans; [apply Rabs_triang|]. rewrite Rabs_Ropp. lra. }
    destruct (fsub_val p lo 1001 ltac:(lia) Fp Flo B) as (Fd & Vd). destruct (np_mod_val (fsub p lo) (fsize lo hi) Fd Fs ltac:(lra)) as (Fm & Vm & Rm & _).
    assert (B' : Rabs (val (np_mod (fsub p lo) (fsize lo hi)) + val lo) <= bpow radix2 1002).
    { change 1002%Z with (1000 + 1 + 1)%Z. rewrite !pow_succ. change 1001%Z with (1000 + 1)%Z in Ps. rewrite pow_succ in Ps. eapply Rle_trans; [apply Rabs_triang|]. rewrite (Rabs_pos_eq (val (np_mod _ _))) by lra. pose proof (bpow_gt_0 radix2 1000). lra. }
    destruct (fadd_val (np_mod (fsub p lo) (fsize lo hi)) lo 1002 ltac:(lia) Fm Flo B') as (Fr & Vr). unfold fnormalize. split; auto. rewrite Vr. split.
    - rewrite <- (rnd_id (val lo)) at 1 by apply val_format. apply rnd_le. lra.
    - apply rnd_le. lra. Qed.
  Lemma upper_slack : rnd (s + val lo) <= s + s / 2 + val lo.
  Proof. destruct size_val as (Fs & Vs & Ps). pose proof (rnd_near (s + val lo) (val hi) (val_format hi)) as N.
    pose proof (rnd_half_le (val hi - val lo)) as H. rewrite <- Vs in H. specialize (H ltac:(lra)). replace (val hi - (s + val lo)) with (- (s - (val hi - val lo))) in N by ring. rewrite Rabs_Ropp in N.
    pose proof (Rle_abs (rnd (s + val lo) - (s + val lo))). lra. Qed.

  Lemma frac_val q : fin q -> val lo <= val q <= s + s / 2 + val lo -> fin (fget_frac lo hi q) /\ 0 <= val (fget_frac lo hi q) < 1.
  Proof. intros Fq Vq. destruct size_val as (Fs & Vs & Ps).
    assert (B : Rabs (val q - val lo) <= bpow radix2 1002).
    { rewrite Rabs_pos_eq by lra. change 1002%Z with (1001 + 1)%Z. rewrite pow_succ. lra. }
    destruct (fsub_val q lo 1002 ltac:(lia) Fq Flo B) as (Fd & Vd).
    assert (Pd : 0 <= val (fsub q lo)) by (rewrite Vd; apply rnd_pos; lra).
    assert (Ud : val (fsub q lo) <= 3 * s). { rewrite Vd. pose proof (rnd_double (val q - val lo)) as D. rewrite (Rabs_pos_eq (val q - val lo)) in D by lra. pose proof (Rle_abs (rnd (val q - val lo))). lra. }
    assert (Pq : 0 <= val (fsub q lo) / s <= 3).
    { split; [apply Rmult_le_pos; [lra|left; apply Rinv_0_lt_compat; lra]|]. apply (Rmult_le_reg_r s); [lra|]. replace (val (fsub q lo) / s * s) with (val (fsub q lo)) by (field; lra). auto. }
    assert (Bq : Rabs (val (fsub q lo) / s) <= bpow radix2 2) by (rewrite Rabs_pos_eq by lra; change (bpow radix2 2) with 4; lra).
    destruct (fdiv_val (fsub q lo) (fsize lo hi) 2 ltac:(lia) Fd Fs ltac:(lra) Bq) as (Fv & Vv). destruct fone_val as (F1 & V1).
    destruct (np_mod_val (fdiv (fsub q lo) (fsize lo hi)) fone Fv F1 ltac:(lra)) as (Fm & _ & R1 & R2). unfold fget_frac. split; auto. rewrite V1 in *. split; [lra|]. apply R2. rewrite Vv. apply rnd_pos. lra. Qed.
  Lemma stored_frac : fin (fget_frac lo hi (fnormalize lo hi p)) /\ 0 <= val (fget_frac lo hi (fnormalize lo hi p)) < 1.
  Proof. destruct normalize_val as (F & V). pose proof upper_slack. apply frac_val; auto. lra. Qed.
End Box.
