(** Rounding errors of sums in any order. *)
From Coq Require Import ZArith Reals Psatz List Permutation.
From Flocq Require Import Core BinarySingleNaN Relative.
From Verif Require Import Base BaseFacts CoordSys Float FloatFacts FloatVector FloatVectorFacts FloatMin FloatCell FloatCellNum FloatDistNum FloatStepNum FloatIdentify SpecFloatIdentify.
From Coq Require Import Lra.
Import ListNotations.
Open Scope list_scope.
Open Scope R_scope.

Lemma rsum_app l m : rsum (l ++ m) = rsum l + rsum m.
Proof. unfold rsum. induction l as [|x l IH]; cbn; [lra|]. rewrite IH. lra. Qed.
Lemma rsum_perm l m : Permutation l m -> rsum l = rsum m.
Proof. unfold rsum. induction 1; cbn; lra. Qed.

Lemma summed_nil l x : summed l x -> l = [] -> fin x /\ val x = 0.
Proof. induction 1 as [s|x|l1 l2 x y H1 IH1 H2 IH2|l l' x Pm H IH]; intros E; try discriminate.
  - split; reflexivity.
  - apply app_eq_nil in E as (-> & ->). destruct (IH1 eq_refl) as (F1 & V1), (IH2 eq_refl) as (F2 & V2).
    destruct (fadd_val x y 0 ltac:(lia) F1 F2) as (F & V); [rewrite V1, V2, Rplus_0_r, Rabs_R0; apply bpow_ge_0|]. split; auto. rewrite V, V1, V2, Rplus_0_r. apply rnd_0.
  - subst l'. apply Permutation_sym, Permutation_nil in Pm. auto. Qed.

Section Sums.
  Variable M : R.
  Hypothesis HM : pw (-900) <= M <= pw 400.
  Let u := pw (-53).
  Lemma tiny_wide : pw (-1075) <= u * M.
  Proof. apply Rle_trans with (u * pw (-900)); [unfold u; rewrite pw_mul; apply pw_le; lia|]. apply Rmult_le_compat_l; [left; apply pw_pos|apply HM]. Qed.
  Lemma abs_sum l : Forall (okc M) l -> Rabs (rsum (map val l)) <= INR (length l) * M.
  Proof. induction 1 as [|x l (_ & Bx) F IH]; [unfold rsum; cbn; rewrite Rabs_R0; lra|]. unfold rsum in *. cbn [map fold_right length]. rewrite S_INR. eapply Rle_trans; [apply Rabs_triang|]. lra. Qed.
  Lemma big_count n : (n <= 2 ^ 21)%nat -> 0 <= INR n <= 2097152.
  Proof. intros H. split; [apply pos_INR|]. replace 2097152 with (INR (2 ^ 21)); [apply le_INR; auto|]. rewrite pow_INR. replace (INR 2) with 2 by (cbn; lra). lra. Qed.
  Lemma u_tiny : 0 < u <= / 4503599627370496.
  Proof. split; [apply pw_pos|]. change (/ 4503599627370496) with (pw (-52)). apply pw_le. lia. Qed.
  Lemma summed_bound l x : summed l x -> Forall (okc M) l -> (length l <= 2 ^ 21)%nat ->
    fin x /\ Rabs (val x - rsum (map val l)) <= 2 * (u * M) * (INR (length l) * (INR (length l) - 1)).
  Proof. intros H. assert (Mp : 0 < M) by (pose proof (pw_pos (-900)); lra). pose proof u_tiny as U. assert (UM : 0 < u * M) by (apply Rmult_lt_0_compat; lra).
    induction H as [s|x|l1 l2 x y H1 IH1 H2 IH2|l l' x Pm H IH]; intros F L.
    - split; [reflexivity|]. unfold rsum. cbn. rewrite Rminus_0_r, Rabs_R0. lra.
    - apply Forall_inv in F as (Fx & Bx). split; auto. unfold rsum. cbn. replace (val x - (val x + 0)) with 0 by ring. rewrite Rabs_R0. lra.
    - apply Forall_app in F as (F1 & F2). rewrite app_length in L. destruct (IH1 F1 ltac:(lia)) as (Fx & Ex), (IH2 F2 ltac:(lia)) as (Fy & Ey). rewrite map_app, rsum_app, app_length, plus_INR.
      pose proof (abs_sum l1 F1) as B1. pose proof (abs_sum l2 F2) as B2. pose proof (big_count (length l1) ltac:(lia)) as N1. pose proof (big_count (length l2) ltac:(lia)) as N2.
      set (S1 := rsum (map val l1)) in *. set (S2 := rsum (map val l2)) in *.
      assert (Q : forall n, 0 <= n <= 2097152 -> 2 * (u * M) * (n * (n - 1)) <= / 256 * M).
      { intros n Hn. assert (n * (n - 1) <= 2097152 * 2097152) by nra. apply Rle_trans with (2 * (u * M) * (2097152 * 2097152)); [apply Rmult_le_compat_l; lra|]. assert (u * M <= / 4503599627370496 * M) by (apply Rmult_le_compat_r; lra). lra. }
      destruct l1 as [|a1 l1']; [|destruct l2 as [|a2 l2']].
      + destruct (summed_nil _ _ H1 eq_refl) as (_ & Vx). assert (E : val x + val y = val y) by lra.
        assert (By : Rabs (val x + val y) <= pw 430).
        { rewrite E. apply Rle_trans with (4194304 * M); [pose proof (Q _ N2); assert (INR (length l2) * M <= 2097152 * M) by (apply Rmult_le_compat_r; lra); rewrite abs_le in *; lra|]. change 4194304 with (pw 22). apply Rle_trans with (pw 22 * pw 400); [apply Rmult_le_compat_l; [left; apply pw_pos|lra]|]. rewrite pw_mul. apply pw_le. lia. }
        destruct (fadd_val x y 430 ltac:(lia) Fx Fy By) as (Fs & Vs). split; auto. rewrite Vs, E, rnd_id by apply val_format. replace (S1 + S2) with S2 by (unfold S1, rsum; cbn; ring). cbn [length INR]. rewrite !Rplus_0_l. exact Ey.
      + destruct (summed_nil _ _ H2 eq_refl) as (_ & Vy). assert (E : val x + val y = val x) by lra.
        assert (By : Rabs (val x + val y) <= pw 430).
        { rewrite E. apply Rle_trans with (4194304 * M); [pose proof (Q _ N1); assert (INR (length (a1 :: l1')) * M <= 2097152 * M) by (apply Rmult_le_compat_r; lra); rewrite abs_le in *; lra|]. change 4194304 with (pw 22). apply Rle_trans with (pw 22 * pw 400); [apply Rmult_le_compat_l; [left; apply pw_pos|lra]|]. rewrite pw_mul. apply pw_le. lia. }
        destruct (fadd_val x y 430 ltac:(lia) Fx Fy By) as (Fs & Vs). split; auto. rewrite Vs, E, rnd_id by apply val_format. replace (S1 + S2) with S1 by (unfold S2, rsum; cbn; ring). change (INR (length (@nil double))) with 0. rewrite !Rplus_0_r. exact Ex.
      + assert (P1 : 1 <= INR (length (a1 :: l1'))) by (cbn [length]; rewrite S_INR; pose proof (pos_INR (length l1')); lra). assert (P2 : 1 <= INR (length (a2 :: l2'))) by (cbn [length]; rewrite S_INR; pose proof (pos_INR (length l2')); lra).
        set (n1 := INR (length (a1 :: l1'))) in *. set (n2 := INR (length (a2 :: l2'))) in *. change (rsum (map val (a1 :: l1'))) with S1; change (rsum (map val (a2 :: l2'))) with S2; clearbody n1 n2 S1 S2.
        pose proof (Q _ N1) as Q1. pose proof (Q _ N2) as Q2.
        assert (Bs : Rabs (val x + val y) <= (n1 + n2) * M + / 128 * M) by (rewrite abs_le in *; lra).
        assert (By : Rabs (val x + val y) <= pw 430).
        { apply Rle_trans with (8388608 * M); [assert ((n1 + n2) * M <= 4194304 * M) by (apply Rmult_le_compat_r; lra); lra|]. change 8388608 with (pw 23). apply Rle_trans with (pw 23 * pw 400); [apply Rmult_le_compat_l; [left; apply pw_pos|lra]|]. rewrite pw_mul. apply pw_le. lia. }
        destruct (fadd_val x y 430 ltac:(lia) Fx Fy By) as (Fs & Vs). split; auto. pose proof (rnd_rel (val x + val y)) as Er. rewrite <- Vs in Er. fold u in Er. pose proof (tiny_wide) as T. fold u in T.
        assert (U1 : u * Rabs (val x + val y) <= (n1 + n2) * (u * M) + / 128 * (u * M)) by (replace ((n1 + n2) * (u * M) + / 128 * (u * M)) with (u * ((n1 + n2) * M + / 128 * M)) by ring; apply Rmult_le_compat_l; lra).
        set (w := u * M) in *. assert (K : n1 + n2 + 2 <= 4 * (n1 * n2)) by nra.
        assert (K2 : (n1 + n2 + 2) * w <= 4 * (n1 * n2) * w) by (apply Rmult_le_compat_r; lra).
        replace (2 * w * ((n1 + n2) * (n1 + n2 - 1))) with (2 * w * (n1 * (n1 - 1)) + 2 * w * (n2 * (n2 - 1)) + 4 * (n1 * n2) * w) by ring.
        rewrite abs_le in *. lra.
    - destruct (IH (Permutation_Forall (Permutation_sym Pm) F) ltac:(rewrite (Permutation_length Pm); auto)) as (Fx & Ex). split; auto. rewrite <- (Permutation_length Pm), <- (rsum_perm _ _ (Permutation_map val Pm)). exact Ex. Qed.
  (** averages *)
  Lemma mean_bound_wide l x : summed l x -> Forall (okc M) l -> l <> [] -> (length l <= 2 ^ 21)%nat -> let n := INR (length l) in let m := fdiv x (of_int (Z.of_nat (length l))) in
    fin m /\ Rabs (val m - rsum (map val l) / n) <= n * pw (-51) * M /\ Rabs (rsum (map val l) / n) <= M.
  Proof. intros H F Ne L n m. destruct (summed_bound l x H F L) as (Fx & Ex). pose proof (abs_sum l F) as Bs. pose proof (big_count _ L) as N. fold n in Ex, Bs, N. assert (Mp : 0 < M) by (pose proof (pw_pos (-900)); lra). pose proof u_tiny as U. assert (UM : 0 < u * M) by (apply Rmult_lt_0_compat; lra).
    assert (N1 : 1 <= n). { unfold n. destruct l; [congruence|]. cbn [length]. rewrite S_INR. pose proof (pos_INR (length l)). lra. }
    assert (L' : (Z.of_nat (length l) <= 2 ^ 21)%Z) by (replace (2 ^ 21)%Z with (Z.of_nat (2 ^ 21)) by (rewrite Nat2Z.inj_pow; reflexivity); apply Nat2Z.inj_le; exact L).
    assert (P2153 : (2 ^ 21 <= 2 ^ 53)%Z) by (apply Z.pow_le_mono_r; lia).
    destruct (of_int_val (Z.of_nat (length l))) as (Fn & Vn); [rewrite Z.abs_eq by apply Nat2Z.is_nonneg; eapply Z.le_trans; [exact L'|exact P2153]|]. rewrite <- INR_IZR_INZ in Vn. fold n in Vn.
    set (S := rsum (map val l)) in *. assert (Ip : 0 < / n <= 1) by (split; [apply Rinv_0_lt_compat; lra|rewrite <- Rinv_1; apply Rinv_le_contravar; lra]).
    assert (BC : Rabs (S / n) <= M). { unfold Rdiv. rewrite Rabs_mult, (Rabs_pos_eq (/ n)) by lra. apply (Rmult_le_reg_r n); [lra|]. rewrite Rmult_assoc, Rinv_l by lra. lra. }
    assert (Eq : Rabs (val x / n - S / n) <= 2 * (u * M) * (n - 1)). { unfold Rdiv. rewrite <- Rmult_minus_distr_r, Rabs_mult, (Rabs_pos_eq (/ n)) by lra. apply (Rmult_le_reg_r n); [lra|]. rewrite Rmult_assoc, Rinv_l by lra. lra. }
    assert (Small : 2 * (u * M) * (n - 1) <= / 256 * M). { apply Rle_trans with (2 * (/ 4503599627370496 * M) * 2097152); [|lra]. apply Rmult_le_compat; try lra. assert (u * M <= / 4503599627370496 * M) by (apply Rmult_le_compat_r; lra). lra. }
    assert (Bq : Rabs (val x / n) <= 2 * M) by (rewrite abs_le in *; lra).
    assert (Bq' : Rabs (val x / val (of_int (Z.of_nat (length l)))) <= pw 401) by (rewrite Vn; change 401%Z with (400 + 1)%Z; rewrite pow_succ; lra).
    destruct (fdiv_val x (of_int (Z.of_nat (length l))) 401 ltac:(lia) Fx Fn ltac:(rewrite Vn; lra) Bq') as (Fm & Vm). rewrite Vn in Vm. split; [exact Fm|]. split; [|exact BC].
    unfold m. pose proof (rnd_rel (val x / n)) as Er. rewrite <- Vm in Er. fold u in Er. pose proof (tiny_wide) as T. fold u in T.
    assert (U1 : u * Rabs (val x / n) <= u * M + / 256 * (u * M)) by (replace (u * M + / 256 * (u * M)) with (u * (M + / 256 * M)) by ring; apply Rmult_le_compat_l; [lra|rewrite abs_le in *; lra]).
    assert (E51 : pw (-51) = 4 * u) by (unfold u; change 4 with (pw 2); rewrite pw_mul; reflexivity). rewrite E51. replace (n * (4 * u) * M) with (4 * n * (u * M)) by ring. assert (u * M <= n * (u * M)) by (rewrite <- (Rmult_1_l (u * M)) at 1; apply Rmult_le_compat_r; lra). replace (2 * (u * M) * (n - 1)) with (2 * (n * (u * M)) - 2 * (u * M)) in * by ring. rewrite abs_le in *. lra. Qed.
End Sums.
Lemma mean_bound M : pw (-400) <= M <= pw 400 -> forall l x, summed l x -> Forall (okc M) l -> l <> [] -> (length l <= 2 ^ 21)%nat -> let n := INR (length l) in let m := fdiv x (of_int (Z.of_nat (length l))) in
  fin m /\ Rabs (val m - rsum (map val l) / n) <= n * pw (-51) * M /\ Rabs (rsum (map val l) / n) <= M.
Proof. intros (H1 & H2). apply mean_bound_wide. split; auto. apply Rle_trans with (pw (-400)); auto. apply pw_le. lia. Qed.
