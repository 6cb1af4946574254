(** Standard errors in double precision. *)
From Coq Require Import ZArith Reals Psatz List Permutation.
From Flocq Require Import Core BinarySingleNaN.
From Verif Require Import Base BaseFacts CoordSys CoordSysR Float FloatFacts FloatVector FloatVectorFacts FloatMin FloatCell SpecFloatCell FloatCellNum FloatDistNum FloatStepNum FloatIdentify SpecFloatIdentify FloatSumFacts SpecFloatDim VolumeReal.
From Coq Require Import Lra.
Import ListNotations.
Open Scope list_scope.
Open Scope R_scope.

Lemma fsqrt_val x : fin x -> 0 <= val x -> fin (fsqrt x) /\ val (fsqrt x) = rnd (sqrt (val x)).
Proof. intros Fx Px. pose proof (Bsqrt_correct 53 1024 _ _ mode_NE x) as (V & F & _). split; [|exact V]. unfold fin, fsqrt in *. rewrite F. destruct x as [s|s| |s m e b]; auto; try discriminate. destruct s; auto. exfalso. cbn in Px. unfold F2R in Px. cbn [Fnum Fexp] in Px. pose proof (bpow_gt_0 radix2 e). assert (IZR (Z.neg m) < 0) by (apply IZR_lt; lia). assert (IZR (Z.neg m) * bpow radix2 e < 0) by nra. cbn [cond_Zopp Z.opp] in Px. lra. Qed.
Lemma summed_nonneg l x : summed l x -> Forall (fun y => 0 <= val y) l -> 0 <= val x.
Proof. induction 1 as [s|x|l1 l2 x y H1 IH1 H2 IH2|l l' x Pm H IH]; intros F.
  - cbn. lra.
  - exact (Forall_inv F).
  - apply Forall_app in F as (F1 & F2). specialize (IH1 F1). specialize (IH2 F2).
    pose proof (Bplus_correct 53 1024 _ _ mode_NE x y) as C. unfold fadd. destruct (is_finite x) eqn:Fx; [|destruct x as [|[]| |]; try discriminate; destruct y as [|[]| |]; cbn; lra].
    destruct (is_finite y) eqn:Fy; [|destruct y as [|[]| |]; try discriminate; destruct x as [|[]| |]; cbn; lra].
    specialize (C eq_refl eq_refl). destruct (Rlt_bool _ _); [destruct C as (-> & _); apply rnd_pos; lra|]. destruct C as (C & _). destruct (Bplus mode_NE x y) as [| | |]; cbn in C |- *; try lra. discriminate C.
  - apply IH. eapply Permutation_Forall; [apply Permutation_sym; exact Pm|exact F]. Qed.

Lemma squares_length l : rlength l = sqrt (fold_right Rplus 0 (map (fun x => x ^ 2) l)). Proof. reflexivity. Qed.
Lemma length_bound h : 0 <= h -> forall l, Forall (fun x => Rabs x <= h) l -> rlength l <= sqrt (INR (length l)) * h.
Proof. intros H l Fl. rewrite <- (sqrt_square h H) at 1. rewrite <- sqrt_mult_alt by apply pos_INR. unfold rlength. apply sqrt_le_1_alt. induction Fl as [|x l Hx Fl IH]; [cbn; lra|]. cbn [map fold_right length]. rewrite S_INR. assert (x ^ 2 <= h * h). { rewrite <- (pow2_abs x). replace (h * h) with (h ^ 2) by ring. apply pow_incr. split; auto using Rabs_pos. } lra. Qed.
Lemma length_close h : 0 <= h -> forall a b, Forall2 (fun x y => Rabs (x - y) <= h) a b -> rlength a <= rlength b + sqrt (INR (length a)) * h.
Proof. intros H a b F. assert (L : length a = length b) by (clear - F; induction F; cbn; auto). pose proof (rlen_add b (rsub a b) ltac:(rewrite rsub_length; auto)) as T. rewrite rsub_add in T by exact L. eapply Rle_trans; [exact T|]. apply Rplus_le_compat_l.
  rewrite <- (rsub_length a b L). apply length_bound; auto. clear - F. unfold rsub. induction F as [|x y a b Hx F IH]; cbn [map radd]; constructor; auto. replace (x + -1 * y) with (x - y) by ring. exact Hx. Qed.
(** the root of the mean square, divided by the root of the number minus one *)
Definition scatter (l : list R) : R := sqrt (fold_right Rplus 0 (map (fun x => x ^ 2) l) / INR (length l) / (INR (length l) - 1)).
Lemma scatter_close h a b : 0 <= h -> (2 <= length a)%nat -> Forall2 (fun x y => Rabs (x - y) <= h) a b -> Rabs (scatter a - scatter b) <= h.
Proof. intros H N F. assert (L : length a = length b) by (clear - F; induction F; cbn; auto).
  assert (F' : Forall2 (fun x y => Rabs (x - y) <= h) b a) by (clear - F; induction F; constructor; auto; rewrite Rabs_minus_sym; auto).
  pose proof (length_close h H a b F) as A. pose proof (length_close h H b a F') as B. rewrite <- L in B. assert (n2 : 2 <= INR (length a)) by (replace 2 with (INR 2) by (cbn; lra); apply le_INR; exact N).
  unfold scatter. rewrite <- L. set (n := INR (length a)) in *. assert (I1 : 0 < / n) by (apply Rinv_0_lt_compat; lra). assert (I2 : 0 < / (n - 1)) by (apply Rinv_0_lt_compat; lra). assert (I0 : 0 <= / n * / (n - 1)) by (apply Rmult_le_pos; lra).
  assert (E : forall s, 0 <= s -> sqrt (s / n / (n - 1)) = sqrt s * sqrt (/ n * / (n - 1))) by (intros s Hs; unfold Rdiv; rewrite Rmult_assoc; apply sqrt_mult_alt; exact Hs).
  assert (P : forall l : list R, 0 <= fold_right Rplus 0 (map (fun x => x ^ 2) l)) by (clear; induction l as [|x l IH]; cbn [map fold_right]; [lra|pose proof (pow2_ge_0 x); lra]).
  rewrite !E by apply P. fold (rlength a) (rlength b). set (c := sqrt (/ n * / (n - 1))). assert (c0 : 0 <= c) by apply sqrt_pos.
  assert (C : sqrt n * c <= 1). { unfold c. rewrite <- sqrt_mult_alt by lra. replace (n * (/ n * / (n - 1))) with (/ (n - 1)) by (field; lra). apply Rle_trans with (sqrt 1); [|rewrite sqrt_1; lra]. apply sqrt_le_1_alt. apply Rle_trans with (/ 1); [apply Rinv_le_contravar; lra|lra]. }
  assert (C' : sqrt n * h * c <= h) by (replace (sqrt n * h * c) with (h * (sqrt n * c)) by ring; rewrite <- (Rmult_1_r h) at 2; apply Rmult_le_compat_l; lra).
  assert (X : rlength a * c <= rlength b * c + sqrt n * h * c) by (rewrite <- Rmult_plus_distr_r; apply Rmult_le_compat_r; auto). assert (Y : rlength b * c <= rlength a * c + sqrt n * h * c) by (rewrite <- Rmult_plus_distr_r; apply Rmult_le_compat_r; auto). apply abs_le. lra. Qed.

Lemma fold_bound d : forall a b : list R, Forall2 (fun x y => Rabs (x - y) <= d) a b -> Rabs (fold_right Rplus 0 a - fold_right Rplus 0 b) <= INR (length a) * d.
Proof. induction 1 as [|x y a b H F IH]; [cbn; apply abs_le; lra|]. cbn [fold_right length]. rewrite S_INR. apply abs_le in H, IH. apply abs_le. lra. Qed.
Lemma fdiv_nonneg x y : 0 <= val x -> 0 < val y -> 0 <= val (fdiv x y).
Proof. intros Hx Hy. pose proof (Bdiv_correct 53 1024 _ _ mode_NE x y ltac:(lra)) as C. unfold fdiv. destruct (Rlt_bool _ _); [destruct C as (-> & _); apply rnd_pos; unfold Rdiv; apply Rmult_le_pos; [exact Hx|left; apply Rinv_0_lt_compat; exact Hy]|]. destruct (Bdiv mode_NE x y) as [| | |]; cbn in C |- *; try lra. discriminate C. Qed.
Section Error.
  Variables (env : fenvironment) (F : R).
  Hypothesis F_range : pw (-300) <= F <= pw 60.
  Hypothesis Env : good_fenvironment env.
  Lemma F_squares : 0 < F /\ pw (-600) <= F * F <= pw 120 /\ pw (-1075) <= / 10000000000000000 * (F * F) /\ pw (-1075) <= / 10000000000000000 * F.
  Proof. pose proof (pw_pos (-300)) as P3. assert (F0 : 0 < F) by lra. assert (S1 : pw (-600) <= F * F) by (replace (pw (-600)) with (pw (-300) * pw (-300)) by (rewrite pw_mul; reflexivity); apply Rmult_le_compat; lra).
    assert (S2 : F * F <= pw 120) by (replace (pw 120) with (pw 60 * pw 60) by (rewrite pw_mul; reflexivity); apply Rmult_le_compat; lra). split; auto. split; auto.
    assert (T : pw (-60) <= / 10000000000000000) by (change (pw (-60)) with (/ 1152921504606846976); lra). pose proof (pw_pos (-60)) as P6. pose proof (pw_pos (-600)) as P6'.
    split; [apply Rle_trans with (pw (-60) * pw (-600))|apply Rle_trans with (pw (-60) * pw (-300))]; try (rewrite pw_mul; apply pw_le; lia); apply Rmult_le_compat; lra. Qed.
  Lemma one_square (m w : double) : fin m -> fin w -> Rabs (val m) <= 10 * F -> Rabs (val w) <= 9 * F -> let d := fsub w m in let q := fmul d d in
    fin d /\ Rabs (val d - (val w - val m)) <= / 100000000000 * F /\ fin q /\ 0 <= val q <= 410 * (F * F) /\ Rabs (val q - val d ^ 2) <= / 20000000000000 * (F * F).
  Proof. intros Fm Fw Bm Bw d q. destruct F_squares as (F0 & S & T1 & T2). assert (U : 0 < pw (-53) <= / 9000000000000000) by (split; [apply pw_pos|]; change (pw (-53)) with (/ 9007199254740992); lra). pose proof (pw_pos (-1075)) as P.
    assert (B : Rabs (val w - val m) <= 19 * F) by (rewrite abs_le in *; lra). destruct (fsub_val w m 70 ltac:(lia) Fw Fm) as (Fd & Vd); [eapply Rle_trans; [exact B|]; apply Rle_trans with (pw 10 * pw 60); [change (pw 10) with 1024; lra|rewrite pw_mul; apply pw_le; lia]|].
    fold d in Fd, Vd. pose proof (rnd_rel (val w - val m)) as R1. rewrite <- Vd in R1. assert (A : pw (-53) * Rabs (val w - val m) <= / 9000000000000000 * (19 * F)) by (apply Rmult_le_compat; try apply Rabs_pos; lra).
    assert (E1 : Rabs (val d - (val w - val m)) <= / 100000000000 * F) by lra. split; [exact Fd|]. split; auto. assert (Bd : Rabs (val d) <= 20 * F) by (rewrite abs_le in *; lra).
    assert (Q : 0 <= val d * val d <= 400 * (F * F)). { replace (val d * val d) with (Rabs (val d) * Rabs (val d)) by (rewrite <- Rabs_mult, Rabs_pos_eq; [reflexivity|]; replace (val d * val d) with (val d ^ 2) by ring; apply pow2_ge_0). pose proof (Rabs_pos (val d)). split; [apply Rmult_le_pos; auto|]. replace (400 * (F * F)) with (20 * F * (20 * F)) by ring. apply Rmult_le_compat; auto. }
    destruct (fmul_val d d 130 ltac:(lia) Fd Fd) as (Fq & Vq); [rewrite Rabs_pos_eq by apply Q; apply Rle_trans with (pw 10 * pw 120); [change (pw 10) with 1024; lra|rewrite pw_mul; apply pw_le; lia]|]. fold q in Fq, Vq.
    pose proof (rnd_rel (val d * val d)) as R2. rewrite <- Vq in R2. rewrite (Rabs_pos_eq (val d * val d)) in R2 by apply Q. assert (A2 : pw (-53) * (val d * val d) <= / 9000000000000000 * (400 * (F * F))) by (apply Rmult_le_compat; lra).
    split; [exact Fq|]. pose proof (rnd_pos (val d * val d) ltac:(apply Q)) as P0. rewrite <- Vq in P0. replace (val d ^ 2) with (val d * val d) by ring. assert (0 < F * F) by (apply Rmult_lt_0_compat; lra). apply abs_le in R2. split; [split; lra|]. apply abs_le. lra. Qed.
  Lemma error_accurate ws vols mu : (2 <= length ws)%nat -> INR (length ws) <= 1048576 -> Forall2 (fun w v => fin w /\ Rabs (val w) <= 9 * F /\ Rabs (val w - v) <= / 4000000 * F) ws vols ->
    fin (favg env ws) -> Rabs (val (favg env ws) - mu) <= / 3800000 * F -> Rabs (val (favg env ws)) <= 10 * F ->
    let se := fsqrt (fdiv (fvar env ws) (of_int (Z.of_nat (length ws - 1)))) in fin se /\ Rabs (val se - scatter (map (fun v => v - mu) vols)) <= / 500000 * F.
  Proof. intros N Cnt H Fm Em Bm se. destruct F_squares as (F0 & S & T1 & T2). assert (Fpp : 0 < F * F) by (apply Rmult_lt_0_compat; lra). set (m := favg env ws) in *. assert (Vdef : fvar env ws = favg env (map (fun w => fmul (fsub w m) (fsub w m)) ws)) by exact eq_refl. clearbody m.
    assert (U : 0 < pw (-53) <= / 9000000000000000) by (split; [apply pw_pos|]; change (pw (-53)) with (/ 9007199254740992); lra).
    set (ds := map (fun w => fsub w m) ws). set (qs := map (fun w => fmul (fsub w m) (fsub w m)) ws).
    assert (Lq : length qs = length ws) by apply map_length. assert (Ld : length (map val ds) = length ws) by (unfold ds; rewrite !map_length; reflexivity).
    assert (K1 : Forall2 (fun x v => Rabs (x - v) <= / 1900000 * F) (map val ds) (map (fun v => v - mu) vols)).
    { unfold ds. clear - H Fm Em Bm F_range. induction H as [|w v ws vols (Fw & Bw & Ew) H IH]; cbn [map]; constructor; auto. destruct (one_square m w Fm Fw Bm Bw) as (_ & E & _). cbv zeta in E. destruct F_squares as (F0 & _). apply abs_le in E, Ew, Em. apply abs_le. lra. }
    assert (K2 : Forall2 (fun x y => Rabs (x - y) <= / 20000000000000 * (F * F)) (map val qs) (map (fun x => x ^ 2) (map val ds)) /\ Forall (okc (410 * (F * F))) qs /\ Forall (fun q => 0 <= val q) qs).
    { unfold ds, qs. clear - H Fm Em Bm F_range. induction H as [|w v ws vols (Fw & Bw & Ew) H (I1 & I2 & I3)]; cbn [map]; [repeat constructor|]. destruct (one_square m w Fm Fw Bm Bw) as (_ & _ & Fq & Bq & E). cbv zeta in E. repeat split; constructor; auto; [|apply Bq]. split; auto. apply abs_le. destruct F_squares as (F0 & _). assert (0 < F * F) by (apply Rmult_lt_0_compat; lra). lra. }
    destruct K2 as (K2 & Okq & Pq). assert (Nq : qs <> []) by (intros E; rewrite E in Lq; cbn in Lq; clear - N Lq; lia).
    assert (Lq' : (length qs <= 2 ^ 21)%nat). { rewrite Lq. apply INR_le. rewrite pow_INR. replace (INR 2) with 2 by (cbn; lra). lra. }
    assert (M : pw (-900) <= 410 * (F * F) <= pw 400). { split; [apply Rle_trans with (pw (-600)); [apply pw_le; lia|lra]|]. apply Rle_trans with (pw 10 * pw 120); [change (pw 10) with 1024; lra|rewrite pw_mul; apply pw_le; lia]. }
    destruct Env as (_ & _ & _ & _ & Sm & _). destruct (mean_bound_wide (410 * (F * F)) M qs (fe_sum env qs) (Sm qs) Okq Nq Lq') as (Fv & Ev & Bv). cbv zeta in Fv, Ev. fold (favg env qs) in Fv, Ev. pose proof (summed_nonneg qs _ (Sm qs) Pq) as Ps.
    fold qs in Vdef. unfold se. assert (n2 : 2 <= INR (length ws)) by (replace 2 with (INR 2) by (cbn; lra); apply le_INR; exact N).
    assert (Zn : Z.of_nat (length ws - 1) = (Z.of_nat (length ws) - 1)%Z) by (apply Nat2Z.inj_sub; clear - N; lia). assert (Zb : (1 <= Z.of_nat (length ws) - 1 <= 2 ^ 53)%Z).
    { split; [clear - N; lia|]. apply le_IZR. rewrite minus_IZR, <- INR_IZR_INZ. apply Rle_trans with (IZR (2 ^ 21)); [change (2 ^ 21)%Z with 2097152%Z; lra|apply IZR_le, Z.pow_le_mono_r; lia]. }
    destruct (of_int_val (Z.of_nat (length ws) - 1)) as (Fn & Vn); [rewrite Z.abs_eq by (clear - Zb; lia); apply Zb|]. rewrite minus_IZR, <- INR_IZR_INZ in Vn. rewrite Zn. set (k := of_int (Z.of_nat (length ws) - 1)) in *. clearbody k.
    destruct (of_int_val (Z.of_nat (length ws))) as (Fn' & Vn'); [rewrite Z.abs_eq by apply Nat2Z.is_nonneg; assert (P2 : (2 ^ 21 < 2 ^ 53)%Z) by (apply Z.pow_lt_mono_r; lia); assert (Z.of_nat (length ws) <= 2 ^ 21)%Z by (apply le_IZR; rewrite <- INR_IZR_INZ; change (2 ^ 21)%Z with 2097152%Z; lra); clear - H0 P2; lia|]. rewrite <- INR_IZR_INZ in Vn'.
    assert (P0 : 0 <= val (favg env qs)) by (unfold favg; apply fdiv_nonneg; [exact Ps|]; rewrite Lq, Vn'; lra).
    rewrite Vdef. set (va := favg env qs) in *. clearbody va. clear Vdef Ps Sm se. rewrite Lq in Ev, Bv. set (n := INR (length ws)) in *.
    pose proof (fold_bound _ _ _ K2) as Sd. assert (Lq2 : length (map val qs) = length ws) by (unfold qs; rewrite !map_length; reflexivity). rewrite Lq2 in Sd. fold n in Sd. unfold rsum in Ev, Bv.
    assert (Sc : scatter (map val ds) = sqrt (fold_right Rplus 0 (map (fun x => x ^ 2) (map val ds)) / n / (n - 1))) by (unfold scatter; rewrite Ld; reflexivity).
    set (D := fold_right Rplus 0 (map (fun x => x ^ 2) (map val ds))) in *. set (Q := fold_right Rplus 0 (map val qs)) in *. assert (D0 : 0 <= D) by (unfold D; clear; induction (map val ds) as [|x l IH]; cbn [map fold_right]; [lra|pose proof (pow2_ge_0 x); lra]).
    pose proof (scatter_close (/ 1900000 * F) _ _ ltac:(lra) ltac:(rewrite Ld; exact N) K1) as K3. clear K1 K2 Okq Pq. clearbody D Q.
    assert (I1 : 0 < / n) by (apply Rinv_0_lt_compat; lra). assert (I2 : 0 < / (n - 1) <= 1) by (split; [apply Rinv_0_lt_compat; lra|apply Rle_trans with (/ 1); [apply Rinv_le_contravar; lra|lra]]).
    assert (In : n * / (n - 1) <= 2). { apply (Rmult_le_reg_r (n - 1)); [lra|]. rewrite Rmult_assoc, Rinv_l by lra. lra. }
    (* the quotient *)
    assert (Qn : Rabs (Q / n - D / n) <= / 20000000000000 * (F * F)). { replace (Q / n - D / n) with ((Q - D) * / n) by (unfold Rdiv; ring). rewrite Rabs_mult, (Rabs_pos_eq (/ n)) by lra. apply (Rmult_le_reg_r n); [lra|]. rewrite Rmult_assoc, Rinv_l by lra. assert (Sd' : Rabs (Q - D) <= n * (/ 20000000000000 * (F * F))) by exact Sd. lra. }
    set (G := F * F) in *. assert (P51 : pw (-51) <= / 2200000000000000) by (change (pw (-51)) with (/ 2251799813685248); lra). pose proof (pw_pos (-51)) as P51'.
    assert (Vk : Rabs (val va / (n - 1) - D / n / (n - 1)) <= / 2000000000000 * G).
    { replace (val va / (n - 1) - D / n / (n - 1)) with ((val va - Q / n) * / (n - 1) + (Q / n - D / n) * / (n - 1)) by (unfold Rdiv; ring). eapply Rle_trans; [apply Rabs_triang|]. rewrite !Rabs_mult, (Rabs_pos_eq (/ (n - 1))) by lra.
      assert (A1 : Rabs (val va - Q / n) * / (n - 1) <= 2 * (/ 2200000000000000 * (410 * G))).
      { apply Rle_trans with (n * pw (-51) * (410 * G) * / (n - 1)); [apply Rmult_le_compat_r; [lra|exact Ev]|]. replace (n * pw (-51) * (410 * G) * / (n - 1)) with (n * / (n - 1) * (pw (-51) * (410 * G))) by ring. apply Rmult_le_compat; try lra; [apply Rmult_le_pos; lra|apply Rmult_le_pos; lra|apply Rmult_le_compat_r; lra]. }
      assert (A2 : Rabs (Q / n - D / n) * / (n - 1) <= / 20000000000000 * G * 1) by (apply Rmult_le_compat; try apply Rabs_pos; lra). lra. }
    assert (Bva : 0 <= val va <= 420 * G). { split; auto. assert (n * pw (-51) * (410 * G) <= 1048576 * / 2200000000000000 * (410 * G)) by (apply Rmult_le_compat_r; [lra|]; apply Rmult_le_compat; lra). apply abs_le in Ev, Bv. lra. }
    assert (Bq : 0 <= val va / val k <= 420 * G). { rewrite Vn. unfold Rdiv. split; [apply Rmult_le_pos; lra|]. replace (420 * G) with (420 * G * 1) by ring. apply Rmult_le_compat; lra. }
    destruct (fdiv_val va k 130 ltac:(lia) Fv Fn) as (Fq & Vq); [rewrite Vn; lra|rewrite Rabs_pos_eq by apply Bq; apply Rle_trans with (pw 10 * pw 120); [change (pw 10) with 1024; lra|rewrite pw_mul; apply pw_le; lia]|].
    pose proof (rnd_rel (val va / val k)) as R1. rewrite <- Vq in R1. rewrite (Rabs_pos_eq (val va / val k)) in R1 by apply Bq. pose proof (rnd_pos _ (proj1 Bq)) as Pq. rewrite <- Vq in Pq. rewrite Vn in R1, Bq. set (q := fdiv va k) in *. clearbody q.
    assert (A3 : pw (-53) * (val va / (n - 1)) <= / 9000000000000000 * (420 * G)) by (apply Rmult_le_compat; lra).
    assert (Dq : Rabs (val q - D / n / (n - 1)) <= / 1000000000000 * G) by (apply abs_le in R1, Vk; apply abs_le; lra).
    destruct (fsqrt_val q Fq Pq) as (Fs & Vs). split; [exact Fs|]. pose proof (rnd_rel (sqrt (val q))) as R2. rewrite <- Vs in R2. pose proof (sqrt_pos (val q)) as Sp. rewrite (Rabs_pos_eq (sqrt (val q))) in R2 by exact Sp.
    assert (Gs : / 1000000000000 * G = (/ 1000000 * F) * (/ 1000000 * F)) by (unfold G; field). assert (X0 : 0 <= D / n / (n - 1)) by (unfold Rdiv; apply Rmult_le_pos; [apply Rmult_le_pos|]; lra). rewrite Gs in Dq. apply abs_le in Dq.
    pose proof (sqrt_upper (val q) (D / n / (n - 1)) 0 (/ 1000000 * F) X0 ltac:(lra) ltac:(lra) ltac:(lra)) as Q1. pose proof (sqrt_upper (D / n / (n - 1)) (val q) 0 (/ 1000000 * F) Pq ltac:(lra) ltac:(lra) ltac:(lra)) as Q2. rewrite <- Sc in Q1, Q2.
    assert (Bs : sqrt (val q) <= 21 * F). { rewrite <- (sqrt_square (21 * F)) by lra. apply sqrt_le_1_alt. replace (21 * F * (21 * F)) with (441 * G) by (unfold G; ring). apply abs_le in R1. lra. }
    assert (A4 : pw (-53) * sqrt (val q) <= / 9000000000000000 * (21 * F)) by (apply Rmult_le_compat; lra). apply abs_le in R2, K3. apply abs_le. lra. Qed.
End Error.
