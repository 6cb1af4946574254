(** Gram determinants are squared volumes (C71). *)
From Coq Require Import Reals Psatz Qreals.
From Verif Require Import Base BaseFacts CoordSys SpecGeom CoordSysFacts GeomCombined CoordSysR Graph SpecGraph GraphFacts Dimension SpecDim DimensionFacts DrawFacts VolumeFacts LocalDim SpecVolume.
From Coq Require Import Lra.
Open Scope list_scope.
Open Scope Qc_scope.

Lemma dot_comm v w : dot v w = dot w v.
Proof. unfold dot, qsum. revert w. induction v as [|x v IH]; intros [|y w]; cbn in *; auto. rewrite IH. ring. Qed.
Lemma dot_add u v w : length u = length v -> dot (vadd u v) w = dot u w + dot v w.
Proof. unfold dot, qsum, vadd. revert v w. induction u as [|x u IH]; intros [|y v] [|z w] L; cbn in *; try discriminate; try (ring). rewrite IH by lia. ring. Qed.
Lemma dot_scale a v w : dot (map (Qcmult a) v) w = a * dot v w.
Proof. unfold dot, qsum. revert w. induction v as [|x v IH]; intros [|z w]; cbn in *; try ring. rewrite IH. ring. Qed.
Lemma dot_add_r u v w : length u = length v -> dot w (vadd u v) = dot w u + dot w v.
Proof. intros L. rewrite dot_comm, dot_add, (dot_comm u), (dot_comm v); auto. Qed.
Lemma dot_scale_r a v w : dot w (map (Qcmult a) v) = a * dot w v.
Proof. rewrite dot_comm, dot_scale, dot_comm. auto. Qed.
Lemma perp_dot v w : perpendicular v w <-> dot v w = 0. Proof. reflexivity. Qed.
Lemma dot_nonneg v : 0 <= dot v v.
Proof. rewrite dot_len_sq. apply euclid_sq_nonneg. Qed.
Lemma dot_zero_all v : dot v v = 0 -> forall w, dot v w = 0.
Proof. intros H. assert (F : Forall (fun x => x = 0) v).
  { unfold dot, qsum in H. revert H. induction v as [|x v IH]; cbn; [constructor|]. intros H. assert (N := dot_nonneg v). unfold dot, qsum in N.
    assert (S : 0 <= x * x) by apply sq_nonneg. assert (x * x = 0). { apply Qcle_antisym; auto. rewrite <- H. rewrite <- (Qcplus_0_r (x * x)) at 1. apply Qcplus_le_compat; [apply Qcle_refl|exact N]. }
    constructor; [destruct (Qcmult_integral _ _ H0); auto|]. apply IH. rewrite H0 in H. rewrite Qcplus_0_l in H. exact H. }
  intros w. unfold dot, qsum. revert w. induction F as [|x v -> F IH]; intros [|y w]; cbn; auto. rewrite IH; [ring|]. unfold dot, qsum in H. cbn in H. rewrite Qcmult_0_l, Qcplus_0_l in H. exact H. Qed.

Lemma vadd_length u v : length u = length v -> length (vadd u v) = length u.
Proof. intros. unfold vadd. rewrite map2_length; auto. Qed.
(** ** the volume is the square root of the Gram determinant *)
Lemma spanned_gram n vs vol : Forall (fun v => length v = n) vs -> (length vs <= 3)%nat -> spanned_volume vs vol -> vol = sqrt (Qc2R (det (length vs) (gram vs))).
Proof. intros L K S. destruct vs as [|u [|v [|w [|]]]]; cbn [length] in K; try lia; cbn [length].
  - inversion S. subst. replace (Qc2R (det 0 (gram []))) with 1%R; [rewrite sqrt_1; reflexivity|]. unfold Qc2R. cbn. unfold Q2R. cbn. lra.
  - inversion_clear S as [|? ? b h cs S0 Lh Lc E P]. inversion_clear S0. destruct cs; [|discriminate]. cbn [combined] in E. subst h. rewrite det1, dot_len_sq, Rmult_1_r. reflexivity.
  - inversion_clear S as [|? ? b h cs S0 Lh Lc E P]. destruct cs as [|a [|]]; try discriminate. cbn [combined] in E. inversion_clear S0 as [|? ? b' h' cs' S1 Lh' Lc' E' P']. inversion_clear S1. destruct cs'; [|discriminate]. cbn [combined] in E'. subst h'.
    assert (Lu : length u = n) by apply (Forall_inv L). assert (Lv : length v = n) by apply (Forall_inv (Forall_inv_tail L)).
    pose proof (Forall_inv P) as Phv. rewrite perp_dot in Phv. rewrite Rmult_1_r, <- !dot_len_sq, det2.
    assert (Lhv : length h = length (map (Qcmult a) v)) by (rewrite map_length; congruence). 
    assert (E2 : dot u u * dot v v - dot u v * dot v u = dot h h * dot v v).
    { rewrite (dot_comm v u). subst u. rewrite !dot_add, !dot_add_r, !dot_scale, !dot_scale_r, (dot_comm v h), Phv by auto. ring. }
    rewrite E2, Qc2R_mul, sqrt_mult_alt; auto. rewrite <- Qc2R_0. apply Qc2R_le, dot_nonneg.
  - inversion_clear S as [|? ? b h cs S0 Lh Lc E P]. destruct cs as [|a [|a2 [|]]]; try discriminate. cbn [combined] in E. inversion_clear S0 as [|? ? b' h' cs' S1 Lh' Lc' E' P']. destruct cs' as [|a' [|]]; try discriminate. cbn [combined] in E'.
    inversion_clear S1 as [|? ? b'' h'' cs'' S2 Lh'' Lc'' E'' P'']. inversion_clear S2. destruct cs''; [|discriminate]. cbn [combined] in E''. subst h''.
    assert (Lu : length u = n) by apply (Forall_inv L). assert (Lv : length v = n) by apply (Forall_inv (Forall_inv_tail L)). assert (Lw : length w = n) by apply (Forall_inv (Forall_inv_tail (Forall_inv_tail L))).
    pose proof (Forall_inv P) as Phv. pose proof (Forall_inv (Forall_inv_tail P)) as Phw. pose proof (Forall_inv P') as Ph'w. rewrite perp_dot in *. rewrite Rmult_1_r, <- !dot_len_sq, det3.
    assert (Lk : forall x, length (map (Qcmult x) w) = n) by (intros; rewrite map_length; auto). assert (Lj : forall x, length (map (Qcmult x) v) = n) by (intros; rewrite map_length; auto).
    assert (Lhh : length h = n) by congruence. assert (Lhh' : length h' = n) by congruence.
    assert (Lb : forall x, length (vadd h (map (Qcmult x) w)) = n) by (intros; rewrite vadd_length; rewrite ?Lk; auto).
    assert (E3 : dot u u * (dot v v * dot w w - dot v w * dot w v) - dot u v * (dot v u * dot w w - dot v w * dot w u) + dot u w * (dot v u * dot w v - dot v v * dot w u) = dot h h * (dot v v * dot w w - dot v w * dot w v)).
    { rewrite (dot_comm v u), (dot_comm w u), (dot_comm w v). subst u. rewrite !dot_add, !dot_add_r, !dot_scale, !dot_scale_r by (rewrite ?Lb, ?Lk, ?Lj; auto). rewrite ?dot_add, ?dot_add_r, ?dot_scale, ?dot_scale_r by (rewrite ?Lb, ?Lk, ?Lj; auto).
      rewrite (dot_comm w h), (dot_comm v h), (dot_comm w v), Phv, Phw. ring. }
    assert (E2 : dot v v * dot w w - dot v w * dot w v = dot h' h' * dot w w).
    { rewrite (dot_comm w v). clear E3. subst v. rewrite !dot_add, !dot_add_r, !dot_scale, !dot_scale_r by (rewrite ?Lk; auto). rewrite (dot_comm w h'), Ph'w. ring. }
    rewrite E3, E2, !Qc2R_mul. rewrite !sqrt_mult_alt; auto; rewrite <- Qc2R_0; apply Qc2R_le, dot_nonneg. Qed.

(** ** the volume exists *)
Lemma vadd_zero h v : length h = length v -> vadd h (map (Qcmult 0) v) = h.
Proof. unfold vadd. revert v. induction h as [|x h IH]; intros [|y v] L; cbn in *; try discriminate; auto. rewrite IH by lia. f_equal. ring. Qed.
Lemma vadd_cancel u a v : length u = length v -> vadd (vadd u (map (Qcmult (- a)) v)) (map (Qcmult a) v) = u.
Proof. unfold vadd. revert v. induction u as [|x u IH]; intros [|y v] L; cbn in *; try discriminate; auto. rewrite IH by lia. f_equal. ring. Qed.
Lemma vadd_cancel2 u a v b w : length u = length v -> length u = length w -> vadd (vadd (vadd (vadd u (map (Qcmult (- a)) v)) (map (Qcmult (- b)) w)) (map (Qcmult b) w)) (map (Qcmult a) v) = u.
Proof. unfold vadd. revert v w. induction u as [|x u IH]; intros [|y v] [|z w] L L'; cbn in *; try discriminate; auto. rewrite IH by lia. f_equal. ring. Qed.

Lemma height1 n u v : length u = n -> length v = n -> exists h a, length h = n /\ u = vadd h (map (Qcmult a) v) /\ dot h v = 0.
Proof. intros Lu Lv. destruct (Qc_eq_dec (dot v v) 0) as [Z|Z].
  - exists u, 0. split; [auto|]. split; [rewrite vadd_zero; congruence|]. rewrite dot_comm. apply dot_zero_all; auto.
  - exists (vadd u (map (Qcmult (- (dot u v / dot v v))) v)), (dot u v / dot v v). assert (Lm : forall x, length (map (Qcmult x) v) = n) by (intros; rewrite map_length; auto). split; [rewrite vadd_length; rewrite ?Lm; auto|].
    split; [rewrite vadd_cancel; congruence|]. rewrite dot_add, dot_scale by (rewrite Lm; auto). field. auto. Qed.
Lemma dependent v w : length v = length w -> dot v v * dot w w - dot v w * dot w v = 0 -> dot w w <> 0 -> forall x, length x = length v -> dot x w = 0 -> dot x v = 0.
Proof. intros L D W x Lx Pw. destruct (height1 (length v) v w eq_refl (eq_sym L)) as (h & a & Lh & E & Ph).
  assert (Lm : length (map (Qcmult a) w) = length v) by (rewrite map_length; auto).
  assert (H0 : dot h h * dot w w = 0). { rewrite <- D. rewrite (dot_comm w v). clear D. rewrite E. rewrite !dot_add, !dot_add_r, !dot_scale, !dot_scale_r by congruence. rewrite (dot_comm w h), Ph. ring. }
  destruct (Qcmult_integral _ _ H0) as [Z|]; [|contradiction]. rewrite E, dot_add_r, dot_scale_r, Pw by congruence. rewrite (dot_comm x h), (dot_zero_all h Z). ring. Qed.
Lemma height2 n u v w : length u = n -> length v = n -> length w = n -> exists h a b, length h = n /\ u = vadd (vadd h (map (Qcmult b) w)) (map (Qcmult a) v) /\ dot h v = 0 /\ dot h w = 0.
Proof. intros Lu Lv Lw. assert (Lj : forall x, length (map (Qcmult x) v) = n) by (intros; rewrite map_length; auto). assert (Lk : forall x, length (map (Qcmult x) w) = n) by (intros; rewrite map_length; auto).
  destruct (Qc_eq_dec (dot v v * dot w w - dot v w * dot w v) 0) as [D|D].
  - destruct (Qc_eq_dec (dot w w) 0) as [Z|Z].
    + destruct (height1 n u v Lu Lv) as (h & a & Lh & E & P). exists h, a, 0. split; auto. split; [rewrite vadd_zero by congruence; auto|]. split; auto. rewrite dot_comm. apply dot_zero_all; auto.
    + destruct (height1 n u w Lu Lw) as (h & b & Lh & E & P). exists h, 0, b. split; auto. split; [rewrite vadd_zero; [auto|rewrite vadd_length; rewrite ?Lk; congruence]|]. split; auto. apply (dependent v w); auto; congruence.
  - set (D0 := dot v v * dot w w - dot v w * dot w v) in *. set (a := (dot u v * dot w w - dot u w * dot v w) / D0). set (b := (dot u w * dot v v - dot u v * dot v w) / D0).
    exists (vadd (vadd u (map (Qcmult (- a)) v)) (map (Qcmult (- b)) w)), a, b.
    assert (L1 : length (vadd u (map (Qcmult (- a)) v)) = n) by (rewrite vadd_length; rewrite ?Lj; auto). split; [rewrite vadd_length; rewrite ?L1, ?Lk; auto|].
    split; [rewrite vadd_cancel2; congruence|]. rewrite !dot_add by (rewrite ?L1, ?Lj, ?Lk; auto). rewrite !dot_scale, (dot_comm w v). unfold a, b. unfold D0 in *. rewrite (dot_comm w v) in *. split; field; auto. Qed.
Lemma spanned_exists n vs : Forall (fun v => length v = n) vs -> (length vs <= 3)%nat -> exists vol, spanned_volume vs vol.
Proof. assert (S1 : forall w, spanned_volume [w] (sqrt (Qc2R (len_sq w)) * 1)%R) by (intros w; apply (volume_cons w [] 1%R w []); auto; constructor).
  assert (S2 : forall v w, length v = n -> length w = n -> exists vol, spanned_volume [v; w] vol).
  { intros v w Lv Lw. destruct (height1 n v w Lv Lw) as (h & a & Lh & E & P). eexists. apply (volume_cons v [w] _ h [a] (S1 w)); [congruence|auto|auto|constructor; [exact P|constructor]]. }
  intros L K. destruct vs as [|u [|v [|w [|]]]]; cbn [length] in K; try lia.
  - exists 1%R. constructor.
  - eexists. apply S1.
  - apply S2; [apply (Forall_inv L)|apply (Forall_inv (Forall_inv_tail L))].
  - pose proof (Forall_inv L) as Lu. pose proof (Forall_inv (Forall_inv_tail L)) as Lv. pose proof (Forall_inv (Forall_inv_tail (Forall_inv_tail L))) as Lw. cbn beta in *.
    destruct (S2 v w Lv Lw) as (vol & S). destruct (height2 n u v w Lu Lv Lw) as (h & a & b & Lh & E & P1 & P2). eexists. apply (volume_cons u [v; w] _ h [a; b] S); [congruence|auto|exact E|repeat constructor; auto]. Qed.
