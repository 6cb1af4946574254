(** Error bounds for the candidates of a Nelder-Mead step and for the derivative estimate in
    double precision. *)
From Coq Require Import ZArith Reals Psatz List.
From Flocq Require Import Core BinarySingleNaN Relative Plus_error.
From Verif Require Import Base BaseFacts CoordSys NelderMead SpecStep Float FloatFacts FloatVector FloatVectorFacts FloatMin SpecFloatMin FloatMinFacts FloatCell FloatCellNum FloatDistNum SpecFloatStep.
From Coq Require Import Lra.
Import ListNotations.
Open Scope list_scope.
Open Scope R_scope.

Section Scale.
  Variable M : R.
  Hypothesis HM : pw (-400) <= M <= pw 400.
  Let u := pw (-53).
  Let e := u * M.
  Lemma M_pos : 0 < M.
  Proof. pose proof (pw_pos (-400)). lra. Qed.
  Lemma tiny_e : pw (-1075) <= e.
  Proof. apply Rle_trans with (u * pw (-400)); [unfold u; rewrite pw_mul; apply pw_le; lia|]. apply Rmult_le_compat_l; [left; apply pw_pos|apply HM]. Qed.
  Lemma u_small : 0 < u <= / 1048576.
  Proof. split; [apply pw_pos|]. change (/ 1048576) with (pw (-20)). apply pw_le. lia. Qed.
  Lemma e_pos : 0 < e <= / 1048576 * M.
  Proof. pose proof u_small. pose proof M_pos. unfold e. split; [apply Rmult_lt_0_compat; lra|apply Rmult_le_compat_r; lra]. Qed.
  (** an operation with exact result at most [K M] *)
  Lemma scaled_bound K x : 0 <= K <= 1024 -> Rabs x <= K * M -> Rabs x <= pw 410.
  Proof. intros HK H. eapply Rle_trans; [exact H|]. change 410%Z with (10 + 400)%Z. rewrite <- pw_mul. change (pw 10) with 1024. apply Rmult_le_compat; try lra. pose proof M_pos. lra. Qed.
  Lemma rnd_scaled K x : 0 <= K <= 1024 -> Rabs x <= K * M -> Rabs (rnd x - x) <= (K + 1) * e.
  Proof. intros HK H. eapply Rle_trans; [apply rnd_rel|]. pose proof tiny_e. assert (u * Rabs x <= u * (K * M)) by (apply Rmult_le_compat_l; [apply Rlt_le, u_small|auto]). fold u. unfold e in *. nra. Qed.
  Lemma add_scaled K x y : 0 <= K <= 1024 -> fin x -> fin y -> Rabs (val x + val y) <= K * M -> fin (fadd x y) /\ Rabs (val (fadd x y) - (val x + val y)) <= (K + 1) * e.
  Proof. intros HK Fx Fy H. destruct (fadd_val x y 410 ltac:(lia) Fx Fy (scaled_bound K _ HK H)) as (F & ->). split; auto. apply rnd_scaled; auto. Qed.
  Lemma sub_scaled K x y : 0 <= K <= 1024 -> fin x -> fin y -> Rabs (val x - val y) <= K * M -> fin (fsub x y) /\ Rabs (val (fsub x y) - (val x - val y)) <= (K + 1) * e.
  Proof. intros HK Fx Fy H. destruct (fsub_val x y 410 ltac:(lia) Fx Fy (scaled_bound K _ HK H)) as (F & ->). split; auto. apply rnd_scaled; auto. Qed.
  Lemma mul_scaled K x y : 0 <= K <= 1024 -> fin x -> fin y -> Rabs (val x * val y) <= K * M -> fin (fmul x y) /\ Rabs (val (fmul x y) - (val x * val y)) <= (K + 1) * e.
  Proof. intros HK Fx Fy H. destruct (fmul_val x y 410 ltac:(lia) Fx Fy (scaled_bound K _ HK H)) as (F & ->). split; auto. apply rnd_scaled; auto. Qed.

  Definition okc (c : double) : Prop := fin c /\ Rabs (val c) <= M.
  (** sums of up to 64 numbers *)
  Lemma sum_scaled : forall l a A k, fin a -> Rabs (val a - A) <= 70 * INR k * e -> Rabs A <= INR k * M -> (k + length l <= 64)%nat -> Forall okc l ->
    let s := fold_left fadd l a in fin s /\ Rabs (val s - (A + rsum (map val l))) <= 70 * INR (k + length l) * e /\ Rabs (A + rsum (map val l)) <= INR (k + length l) * M.
  Proof. induction l as [|x l IH]; intros a A k Fa Ha HA Hk F; cbn [fold_left map length].
    - unfold rsum. cbn. rewrite Rplus_0_r, Nat.add_0_r. auto.
    - inversion F as [|? ? (Fx & Bx) F']; subst. cbn [length] in Hk. assert (K0 : 0 <= INR k <= 63) by (split; [apply pos_INR|change 63 with (INR 63) || (replace 63 with (INR 63) by (cbn; lra)); apply le_INR; lia]).
      pose proof e_pos as E. pose proof M_pos as P.
      assert (B : Rabs (val a + val x) <= 66 * M).
      { assert (70 * INR k * e <= M) by (apply Rle_trans with (70 * 63 * (/ 1048576 * M)); [|lra]; apply Rmult_le_compat; try lra; nra). assert (INR k * M <= 63 * M) by nra. rewrite abs_le in *. lra. }
      destruct (add_scaled 66 a x ltac:(lra) Fa Fx B) as (Fs & Es).
      specialize (IH (fadd a x) (A + val x) (S k) Fs). rewrite S_INR in IH.
      replace (k + S (length l))%nat with (S k + length l)%nat by lia. unfold rsum. cbn [fold_right]. fold (rsum (map val l)). replace (A + (val x + rsum (map val l))) with (A + val x + rsum (map val l)) by ring.
      apply IH; auto; try lia; rewrite abs_le in *; lra. Qed.
  (** the centroid *)
  Lemma centroid_coord l a : okc a -> Forall okc l -> (S (length l) <= 64)%nat ->
    let n := S (length l) in let c := fdiv (fold_left fadd l a) (of_int (Z.of_nat n)) in let C := (val a + rsum (map val l)) / INR n in
    fin c /\ Rabs (val c - C) <= 73 * e /\ Rabs C <= M.
  Proof. intros (Fa & Ba) F L n c C. pose proof e_pos as E. pose proof M_pos as P. assert (N1 : 1 <= INR n) by (replace 1 with (INR 1) by reflexivity; apply le_INR; unfold n; lia).
    destruct (sum_scaled l a (val a) 1 Fa) as (Fs & Es & Bs); auto; [unfold Rminus; rewrite Rplus_opp_r, Rabs_R0; cbn; lra|cbn; lra|]. change (1 + length l)%nat with n in *.
    set (s := fold_left fadd l a) in *. set (T := val a + rsum (map val l)) in *.
    destruct (of_int_val (Z.of_nat n)) as (Fn & Vn); [lia|]. rewrite <- INR_IZR_INZ in Vn.
    assert (N64 : INR n <= 64) by (replace 64 with (INR 64) by (cbn; lra); apply le_INR; lia).
    assert (BC : Rabs C <= M). { unfold C, Rdiv. rewrite Rabs_mult, (Rabs_pos_eq (/ INR n)) by (left; apply Rinv_0_lt_compat; lra). apply (Rmult_le_reg_r (INR n)); [lra|]. rewrite Rmult_assoc, Rinv_l by lra. lra. }
    assert (Eq : Rabs (val s / INR n - C) <= 70 * e). { unfold C, Rdiv. rewrite <- Rmult_minus_distr_r, Rabs_mult, (Rabs_pos_eq (/ INR n)) by (left; apply Rinv_0_lt_compat; lra). apply (Rmult_le_reg_r (INR n)); [lra|]. rewrite Rmult_assoc, Rinv_l by lra. lra. }
    assert (Bq : Rabs (val s / INR n) <= 2 * M) by (rewrite abs_le in *; lra).
    rewrite <- Vn in Bq, Eq. destruct (fdiv_val s (of_int (Z.of_nat n)) 410 ltac:(lia) Fs Fn ltac:(rewrite Vn; lra) (scaled_bound 2 _ ltac:(lra) Bq)) as (Fc & Vc).
    pose proof (rnd_scaled 2 _ ltac:(lra) Bq) as Er. rewrite <- Vc in Er. split; auto. split; auto. fold c in Er. rewrite abs_le in *. lra. Qed.
  (** a candidate *)
  Lemma cand_coord (A B : double) a b c C w : fin A -> fin B -> val A = a -> val B = b -> 0 <= a <= 3 -> 0 <= b <= 2 -> fin c -> Rabs (val c - C) <= 73 * e -> Rabs C <= M -> okc w ->
    (fin (fsub (fmul A c) (fmul B w)) /\ Rabs (val (fsub (fmul A c) (fmul B w)) - (a * C - b * val w)) <= 256 * e) /\
    (fin (fadd (fmul A c) (fmul B w)) /\ Rabs (val (fadd (fmul A c) (fmul B w)) - (a * C + b * val w)) <= 256 * e).
  Proof. intros FA FB VA VB Ha Hb Fc Ec BC (Fw & Bw). pose proof e_pos as E. pose proof M_pos as P.
    assert (B1 : Rabs (a * val c) <= 6 * M). { rewrite Rabs_mult, (Rabs_pos_eq a) by lra. replace (6 * M) with (3 * (2 * M)) by ring. apply Rmult_le_compat; try lra; [apply Rabs_pos|]. rewrite abs_le in *. lra. }
    assert (B2 : Rabs (b * val w) <= 2 * M). { rewrite Rabs_mult, (Rabs_pos_eq b) by lra. apply Rmult_le_compat; try lra. apply Rabs_pos. }
    rewrite <- VA in B1. rewrite <- VB in B2. destruct (mul_scaled 6 A c ltac:(lra) FA Fc B1) as (F1 & E1). destruct (mul_scaled 2 B w ltac:(lra) FB Fw B2) as (F2 & E2).
    assert (E0 : Rabs (a * val c - a * C) <= 219 * e). { rewrite <- Rmult_minus_distr_l, Rabs_mult, (Rabs_pos_eq a) by lra. replace (219 * e) with (3 * (73 * e)) by ring. apply Rmult_le_compat; try lra. apply Rabs_pos. }
    rewrite VA in *. rewrite VB in *.
    split.
    - destruct (sub_scaled 9 (fmul A c) (fmul B w) ltac:(lra) F1 F2) as (F & Es); [rewrite abs_le in *; lra|]. split; auto. rewrite abs_le in *. lra.
    - destruct (add_scaled 9 (fmul A c) (fmul B w) ltac:(lra) F1 F2) as (F & Es); [rewrite abs_le in *; lra|]. split; auto. rewrite abs_le in *. lra. Qed.
  (** shrinking *)
  Lemma shrink_coord (H : double) x0 x : fin H -> val H = / 2 -> okc x0 -> okc x ->
    fin (fadd x0 (fmul H (fsub x x0))) /\ Rabs (val (fadd x0 (fmul H (fsub x x0))) - (val x0 + val x) / 2) <= 8 * e.
  Proof. intros FH VH (F0 & B0) (F1 & B1). pose proof e_pos as E. pose proof M_pos as P.
    destruct (sub_scaled 2 x x0 ltac:(lra) F1 F0) as (Fs & Es); [rewrite abs_le in *; lra|].
    destruct (mul_scaled (5 / 4) H (fsub x x0) ltac:(lra) FH Fs) as (Fm & Em); [rewrite VH; rewrite abs_le in *; lra|]. rewrite VH in Em.
    destruct (add_scaled (5 / 4) x0 (fmul H (fsub x x0)) ltac:(lra) F0 Fm) as (Fa & Ea); [rewrite abs_le in *; lra|].
    split; auto. rewrite abs_le in *. lra. Qed.
  Lemma stretch_coord (H : double) x0 x : fin H -> val H = 3 / 2 -> okc x0 -> okc x ->
    fin (fadd x0 (fmul H (fsub x x0))) /\ Rabs (val (fadd x0 (fmul H (fsub x x0))) - (val x0 + 3 / 2 * (val x - val x0))) <= 16 * e.
  Proof. intros FH VH (F0 & B0) (F1 & B1). pose proof e_pos as E. pose proof M_pos as P.
    destruct (sub_scaled 2 x x0 ltac:(lra) F1 F0) as (Fs & Es); [rewrite abs_le in *; lra|].
    destruct (mul_scaled (13 / 4) H (fsub x x0) ltac:(lra) FH Fs) as (Fm & Em); [rewrite VH; rewrite abs_le in *; lra|]. rewrite VH in Em.
    destruct (add_scaled (9 / 2) x0 (fmul H (fsub x x0)) ltac:(lra) F0 Fm) as (Fa & Ea); [rewrite abs_le in *; lra|].
    split; auto. rewrite abs_le in *. lra. Qed.
End Scale.
