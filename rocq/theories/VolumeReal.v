(** Volumes spanned by real vectors, and singular values (C74). *)
From Coq Require Import ZArith Reals Psatz List.
From Flocq Require Import Core BinarySingleNaN.
From Verif Require Import Base BaseFacts CoordSysR Float FloatVector FloatMin FloatCell SpecFloatCell FloatCluster SpecFloatCluster FloatIdentify SpecFloatIdentify SpecFloatDim.
From Coq Require Import Lra.
Import ListNotations.
Open Scope list_scope.
Open Scope R_scope.

Notation "a +v b" := (radd a b) (at level 50, left associativity).
Notation "x *v b" := (map (Rmult x) b) (at level 40).
Lemma rlen_sq v : rlength v = sqrt (rdot v v).
Proof. unfold rlength. f_equal. induction v as [|x v IH]; [reflexivity|]. cbn [map fold_right rdot]. rewrite IH. ring. Qed.
Lemma rlen_pos v : 0 <= rlength v. Proof. apply sqrt_pos. Qed.
Lemma rlen_square v : rlength v * rlength v = rdot v v.
Proof. rewrite rlen_sq. apply sqrt_sqrt. apply rdot_nonneg. Qed.
Lemma rdot_comm a b : rdot a b = rdot b a.
Proof. revert b. induction a as [|x a IH]; intros [|y b]; cbn; auto. rewrite IH. ring. Qed.
Lemma rdot_add u v w : length u = length v -> rdot (u +v v) w = rdot u w + rdot v w.
Proof. revert v w. induction u as [|x u IH]; intros [|y v] [|z w] L; cbn in *; try discriminate; try ring. rewrite IH by lia. ring. Qed.
Lemma rdot_scale a v w : rdot (a *v v) w = a * rdot v w.
Proof. revert w. induction v as [|x v IH]; intros [|z w]; cbn in *; try ring. rewrite IH. ring. Qed.
Lemma rdot_add_r u v w : length u = length v -> rdot w (u +v v) = rdot w u + rdot w v.
Proof. intros L. rewrite rdot_comm, rdot_add, (rdot_comm u), (rdot_comm v); auto. Qed.
Lemma rdot_scale_r a v w : rdot w (a *v v) = a * rdot w v.
Proof. rewrite rdot_comm, rdot_scale, rdot_comm. auto. Qed.
Lemma rdot_zero v : rdot v v = 0 -> forall w, rdot v w = 0.
Proof. intros H. assert (F : Forall (fun x => x = 0) v).
  { revert H. induction v as [|x v IH]; cbn; [constructor|]. intros H. pose proof (rdot_nonneg v) as N. assert (S : 0 <= x * x) by apply Rle_0_sqr.
    assert (x * x = 0) by lra. constructor; [destruct (Rmult_integral _ _ H0); auto|]. apply IH. lra. }
  intros w. clear H. revert w. induction F as [|x v -> F IH]; intros [|y w]; cbn; auto. rewrite IH. ring. Qed.
Lemma radd_length u v : length u = length v -> length (u +v v) = length u.
Proof. revert v. induction u as [|x u IH]; intros [|y v] L; cbn in *; try discriminate; auto. Qed.
Lemma scale_length a v : length (a *v v) = length v. Proof. apply map_length. Qed.
Lemma radd_zero h v : length h = length v -> h +v (0 *v v) = h.
Proof. revert v. induction h as [|x h IH]; intros [|y v] L; cbn in *; try discriminate; auto. rewrite IH by lia. f_equal. ring. Qed.
Lemma radd_cancel u a v : length u = length v -> (u +v ((- a) *v v)) +v (a *v v) = u.
Proof. revert v. induction u as [|x u IH]; intros [|y v] L; cbn in *; try discriminate; auto. rewrite IH by lia. f_equal. ring. Qed.
Lemma radd_cancel2 u a v b w : length u = length v -> length u = length w -> (u +v ((- a) *v v) +v ((- b) *v w)) +v (b *v w) +v (a *v v) = u.
Proof. revert v w. induction u as [|x u IH]; intros [|y v] [|z w] L L'; cbn in *; try discriminate; auto. rewrite IH by lia. f_equal. ring. Qed.

(** ** the square of the volume is the Gram determinant *)
Definition d2 (a b c d : R) : R := a * d - b * c.
Definition d3 (a b c d e f g h i : R) : R := a * (e * i - f * h) - b * (d * i - f * g) + c * (d * h - e * g).
Definition gram2 (v w : list R) : R := d2 (rdot v v) (rdot v w) (rdot w v) (rdot w w).
Definition gram3 (u v w : list R) : R := d3 (rdot u u) (rdot u v) (rdot u w) (rdot v u) (rdot v v) (rdot v w) (rdot w u) (rdot w v) (rdot w w).
Definition gramdet (vs : list (list R)) : R := match vs with [] => 1 | [v] => rdot v v | [v; w] => gram2 v w | [u; v; w] => gram3 u v w | _ => 0 end.

Lemma gram2_height v w h a : length h = length w -> v = h +v (a *v w) -> rdot h w = 0 -> gram2 v w = rdot h h * rdot w w.
Proof. intros L E P. unfold gram2, d2. rewrite (rdot_comm w v). subst v. rewrite !rdot_add, !rdot_add_r, !rdot_scale, !rdot_scale_r by (rewrite ?scale_length; auto). rewrite (rdot_comm w h), P. ring. Qed.
Lemma gram3_height u v w h a b : length h = length w -> length v = length w -> u = (h +v (b *v w)) +v (a *v v) -> rdot h v = 0 -> rdot h w = 0 -> gram3 u v w = rdot h h * gram2 v w.
Proof. intros L L' E P P'. unfold gram3, gram2, d2, d3. rewrite (rdot_comm v u), (rdot_comm w u), (rdot_comm w v). assert (L1 : length (h +v (b *v w)) = length w) by (rewrite radd_length; rewrite ?scale_length; auto).
  subst u. rewrite !rdot_add, !rdot_add_r, !rdot_scale, !rdot_scale_r by (rewrite ?L1, ?scale_length; auto). rewrite ?rdot_add, ?rdot_add_r, ?rdot_scale, ?rdot_scale_r by (rewrite ?L1, ?scale_length; auto).
  rewrite (rdot_comm w h), (rdot_comm v h), (rdot_comm w v), P, P'. ring. Qed.

Lemma rspanned_gram n vs vol : Forall (fun v => length v = n) vs -> (length vs <= 3)%nat -> rspanned vs vol -> 0 <= vol /\ vol * vol = gramdet vs.
Proof. intros L K S. destruct vs as [|u [|v [|w [|]]]]; cbn [length] in K; try lia; cbn [gramdet].
  - inversion S. subst. lra.
  - inversion_clear S as [|? ? b h cs S0 Lh Lc E P]. inversion_clear S0. destruct cs; [|discriminate]. cbn [rcombined] in E. subst h. rewrite Rmult_1_r. split; [apply rlen_pos|apply rlen_square].
  - inversion_clear S as [|? ? b h cs S0 Lh Lc E P]. destruct cs as [|a [|]]; try discriminate. cbn [rcombined] in E. inversion_clear S0 as [|? ? b' h' cs' S1 Lh' Lc' E' P']. inversion_clear S1. destruct cs'; [|discriminate]. cbn [rcombined] in E'. subst h'.
    assert (Lu : length u = n) by apply (Forall_inv L). assert (Lv : length v = n) by apply (Forall_inv (Forall_inv_tail L)). pose proof (Forall_inv P) as Phv.
    rewrite (gram2_height u v h a); auto; [|congruence]. rewrite <- !rlen_square. rewrite Rmult_1_r. pose proof (rlen_pos h). pose proof (rlen_pos v). split; [apply Rmult_le_pos; auto|ring].
  - inversion_clear S as [|? ? b h cs S0 Lh Lc E P]. destruct cs as [|a [|a2 [|]]]; try discriminate. cbn [rcombined] in E. inversion_clear S0 as [|? ? b' h' cs' S1 Lh' Lc' E' P']. destruct cs' as [|a' [|]]; try discriminate. cbn [rcombined] in E'.
    inversion_clear S1 as [|? ? b'' h'' cs'' S2 Lh'' Lc'' E'' P'']. inversion_clear S2. destruct cs''; [|discriminate]. cbn [rcombined] in E''. subst h''.
    assert (Lu : length u = n) by apply (Forall_inv L). assert (Lv : length v = n) by apply (Forall_inv (Forall_inv_tail L)). assert (Lw : length w = n) by apply (Forall_inv (Forall_inv_tail (Forall_inv_tail L))).
    pose proof (Forall_inv P) as Phv. pose proof (Forall_inv (Forall_inv_tail P)) as Phw. pose proof (Forall_inv P') as Ph'w. cbn beta in *.
    rewrite (gram3_height u v w h a a2); auto; try congruence. rewrite (gram2_height v w h' a'); auto; [|congruence]. rewrite <- !rlen_square, Rmult_1_r. pose proof (rlen_pos h). pose proof (rlen_pos h'). pose proof (rlen_pos w). split; [repeat apply Rmult_le_pos; auto|ring]. Qed.
Lemma sq_inj x y : 0 <= x -> 0 <= y -> x * x = y * y -> x = y.
Proof. intros. nra. Qed.
Lemma rspanned_unique n vs vol vol' : Forall (fun v => length v = n) vs -> (length vs <= 3)%nat -> rspanned vs vol -> rspanned vs vol' -> vol = vol'.
Proof. intros F L H H'. destruct (rspanned_gram n vs vol F L H) as (P & E). destruct (rspanned_gram n vs vol' F L H') as (P' & E'). apply sq_inj; auto. congruence. Qed.

(** ** heights *)
Lemma height1 n u v : length u = n -> length v = n -> exists h a, length h = n /\ u = h +v (a *v v) /\ rdot h v = 0.
Proof. intros Lu Lv. destruct (Req_dec (rdot v v) 0) as [Z|Z].
  - exists u, 0. split; [auto|]. split; [rewrite radd_zero; congruence|]. rewrite rdot_comm. apply rdot_zero; auto.
  - exists (u +v ((- (rdot u v / rdot v v)) *v v)), (rdot u v / rdot v v). split; [rewrite radd_length; rewrite ?scale_length; congruence|].
    split; [rewrite radd_cancel; congruence|]. rewrite rdot_add, rdot_scale by (rewrite scale_length; congruence). field. auto. Qed.
Lemma dependent v w : length v = length w -> gram2 v w = 0 -> rdot w w <> 0 -> forall x, length x = length v -> rdot x w = 0 -> rdot x v = 0.
Proof. intros L D W x Lx Pw. destruct (height1 (length v) v w eq_refl (eq_sym L)) as (h & a & Lh & E & Ph).
  rewrite (gram2_height v w h a) in D by (auto; congruence). destruct (Rmult_integral _ _ D) as [Z|]; [|contradiction]. rewrite E, rdot_add_r, rdot_scale_r, Pw by (rewrite scale_length; congruence). rewrite (rdot_comm x h), (rdot_zero h Z). ring. Qed.
Lemma height2 n u v w : length u = n -> length v = n -> length w = n -> exists h a b, length h = n /\ u = (h +v (b *v w)) +v (a *v v) /\ rdot h v = 0 /\ rdot h w = 0.
Proof. intros Lu Lv Lw. destruct (Req_dec (gram2 v w) 0) as [D|D].
  - destruct (Req_dec (rdot w w) 0) as [Z|Z].
    + destruct (height1 n u v Lu Lv) as (h & a & Lh & E & P). exists h, a, 0. split; auto. split; [rewrite radd_zero by congruence; auto|]. split; auto. rewrite rdot_comm. apply rdot_zero; auto.
    + destruct (height1 n u w Lu Lw) as (h & b & Lh & E & P). exists h, 0, b. split; auto. split; [rewrite radd_zero; [auto|rewrite radd_length; rewrite ?scale_length; congruence]|]. split; auto. apply (dependent v w); auto; congruence.
  - unfold gram2, d2 in D. set (D0 := rdot v v * rdot w w - rdot v w * rdot w v) in *. set (a := (rdot u v * rdot w w - rdot u w * rdot v w) / D0). set (b := (rdot u w * rdot v v - rdot u v * rdot v w) / D0).
    exists (u +v ((- a) *v v) +v ((- b) *v w)), a, b.
    assert (L1 : length (u +v ((- a) *v v)) = n) by (rewrite radd_length; rewrite ?scale_length; congruence). split; [rewrite radd_length; rewrite ?L1, ?scale_length; congruence|].
    split; [rewrite radd_cancel2; congruence|]. rewrite !rdot_add by (rewrite ?L1, ?scale_length; congruence). rewrite !rdot_scale, (rdot_comm w v). unfold a, b. unfold D0 in *. rewrite (rdot_comm w v) in *. split; field; auto. Qed.
Lemma rspanned_exists n vs : Forall (fun v => length v = n) vs -> (length vs <= 3)%nat -> exists vol, rspanned vs vol.
Proof. assert (S1 : forall w, rspanned [w] (rlength w * 1)) by (intros w; apply (rspanned_cons w [] 1 w []); auto; constructor).
  assert (S2 : forall v w, length v = n -> length w = n -> exists vol, rspanned [v; w] vol).
  { intros v w Lv Lw. destruct (height1 n v w Lv Lw) as (h & a & Lh & E & P). eexists. apply (rspanned_cons v [w] _ h [a] (S1 w)); [congruence|auto|auto|constructor; [exact P|constructor]]. }
  intros L K. destruct vs as [|u [|v [|w [|]]]]; cbn [length] in K; try lia.
  - exists 1. constructor.
  - eexists. apply S1.
  - apply S2; [apply (Forall_inv L)|apply (Forall_inv (Forall_inv_tail L))].
  - pose proof (Forall_inv L) as Lu. pose proof (Forall_inv (Forall_inv_tail L)) as Lv. pose proof (Forall_inv (Forall_inv_tail (Forall_inv_tail L))) as Lw. cbn beta in *.
    destruct (S2 v w Lv Lw) as (vol & S). destruct (height2 n u v w Lu Lv Lw) as (h & a & b & Lh & E & P1 & P2). eexists. apply (rspanned_cons u [v; w] _ h [a; b] S); [congruence|auto|exact E|repeat constructor; auto]. Qed.
(** the volume as a function *)
Definition rvolume (vs : list (list R)) : R := sqrt (gramdet vs).
Lemma rspanned_volume n vs : Forall (fun v => length v = n) vs -> (length vs <= 3)%nat -> rspanned vs (rvolume vs).
Proof. intros F L. destruct (rspanned_exists n vs F L) as (vol & S). destruct (rspanned_gram n vs vol F L S) as (P & E). unfold rvolume. rewrite <- E, sqrt_square; auto. Qed.
Lemma rspanned_value n vs vol : Forall (fun v => length v = n) vs -> (length vs <= 3)%nat -> rspanned vs vol -> vol = rvolume vs.
Proof. intros F L S. apply (rspanned_unique n vs vol (rvolume vs) F L S). eapply rspanned_volume; eauto. Qed.

(** ** changes of the vectors *)
Lemma rdot_le a b : length a = length b -> Rabs (rdot a b) <= rlength a * rlength b.
Proof. intros L. pose proof (cauchy_schwarz a b L) as C. rewrite <- !rlen_square in C. pose proof (rlen_pos a). pose proof (rlen_pos b). apply Rabs_le. assert (0 <= rlength a * rlength b) by (apply Rmult_le_pos; auto). assert (E : rlength a * rlength a * (rlength b * rlength b) = (rlength a * rlength b) * (rlength a * rlength b)) by ring. rewrite E in C. set (z := rlength a * rlength b) in *. clearbody z. split; nra. Qed.
Lemma rlen_add a b : length a = length b -> rlength (a +v b) <= rlength a + rlength b.
Proof. intros L. rewrite !rlen_sq. apply minkowski. exact L. Qed.
Lemma rlen_scale x v : rlength (x *v v) = Rabs x * rlength v.
Proof. rewrite !rlen_sq, rdot_scale, rdot_scale_r. rewrite <- Rmult_assoc, sqrt_mult_alt by apply Rle_0_sqr. f_equal. apply sqrt_Rsqr_abs. Qed.
Lemma height_le (h' u' h e : list R) : length h' = length h -> length h = length e -> rdot h' h' = rdot h' u' -> rdot h' u' = rdot h' h + rdot h' e -> rlength h' <= rlength h + rlength e.
Proof. intros L L' E E'. pose proof (rdot_le h' h L) as A. pose proof (rdot_le h' e ltac:(congruence)) as B. apply Rabs_le_inv in A, B. pose proof (rlen_square h') as S. pose proof (rlen_pos h'). pose proof (rlen_pos h). pose proof (rlen_pos e).
  set (x := rlength h') in *. set (y := rlength h) in *. set (z := rlength e) in *. clearbody x y z. assert (x * x <= x * (y + z)) by lra. nra. Qed.
Lemma rvolume_square vs n : Forall (fun v => length v = n) vs -> (length vs <= 3)%nat -> 0 <= rvolume vs /\ rvolume vs * rvolume vs = gramdet vs.
Proof. intros F L. exact (rspanned_gram n vs _ F L (rspanned_volume n vs F L)). Qed.
Lemma rvolume1 v : rvolume [v] = rlength v.
Proof. unfold rvolume. cbn [gramdet]. symmetry. apply rlen_sq. Qed.
Lemma rvolume_height2 n v w : length v = n -> length w = n -> exists h, length h = n /\ rdot h w = 0 /\ rvolume [v; w] = rlength h * rlength w /\ (forall x, rdot x w = 0 -> length x = n -> rdot x v = rdot x h).
Proof. intros Lv Lw. destruct (height1 n v w Lv Lw) as (h & a & Lh & E & P). exists h. split; auto. split; auto. split.
  - destruct (rvolume_square [v; w] n) as (V0 & V); [auto|cbn; lia|]. apply sq_inj; auto; [apply Rmult_le_pos; apply rlen_pos|]. rewrite V. cbn [gramdet]. rewrite (gram2_height v w h a) by (auto; congruence). rewrite <- !rlen_square. ring.
  - intros x Px Lx. rewrite E, rdot_add_r, rdot_scale_r, Px by (rewrite scale_length; congruence). ring. Qed.
Lemma rvolume_height3 n u v w : length u = n -> length v = n -> length w = n -> exists h, length h = n /\ rdot h v = 0 /\ rdot h w = 0 /\ rvolume [u; v; w] = rlength h * rvolume [v; w] /\ (forall x, rdot x v = 0 -> rdot x w = 0 -> length x = n -> rdot x u = rdot x h).
Proof. intros Lu Lv Lw. destruct (height2 n u v w Lu Lv Lw) as (h & a & b & Lh & E & P & P'). exists h. split; auto. split; auto. split; auto. split.
  - destruct (rvolume_square [u; v; w] n) as (V0 & V); [repeat constructor; auto|cbn; lia|]. destruct (rvolume_square [v; w] n) as (W0 & W); [repeat constructor; auto|cbn; lia|]. apply sq_inj; auto; [apply Rmult_le_pos; auto; apply rlen_pos|]. rewrite V. cbn [gramdet] in *. rewrite (gram3_height u v w h a b) by (auto; congruence). rewrite <- W, <- !rlen_square. ring.
  - intros x Px Px' Lx. rewrite E. assert (L1 : length (h +v (b *v w)) = n) by (rewrite radd_length; rewrite ?scale_length; congruence). rewrite !rdot_add_r, !rdot_scale_r, Px, Px' by (rewrite ?L1, ?scale_length; congruence). ring. Qed.
Lemma height_short (h u : list R) : length h = length u -> rdot h u = rdot h h -> rlength h <= rlength u.
Proof. intros L E. pose proof (rdot_le h u L) as A. apply Rabs_le_inv in A. pose proof (rlen_square h). pose proof (rlen_pos h). pose proof (rlen_pos u). rewrite E in A. nra. Qed.

Lemma volume2_bound n v w : length v = n -> length w = n -> 0 <= rvolume [v; w] <= rlength v * rlength w.
Proof. intros Lv Lw. destruct (rvolume_height2 n v w Lv Lw) as (h & Lh & P & V & X). rewrite V. pose proof (rlen_pos h). pose proof (rlen_pos w). split; [apply Rmult_le_pos; auto|]. apply Rmult_le_compat_r; auto. apply height_short; [congruence|]. apply X; auto. Qed.
Lemma volume3_bound n u v w : length u = n -> length v = n -> length w = n -> 0 <= rvolume [u; v; w] <= rlength u * rvolume [v; w].
Proof. intros Lu Lv Lw. destruct (rvolume_height3 n u v w Lu Lv Lw) as (h & Lh & P & P' & V & X). rewrite V. pose proof (volume2_bound n v w Lv Lw) as (B & _). pose proof (rlen_pos h). split; [apply Rmult_le_pos; auto|]. apply Rmult_le_compat_r; auto. apply height_short; [congruence|]. apply X; auto. Qed.
Lemma volume2_first n v v' e w : length v = n -> length v' = n -> length w = n -> length e = n -> v' = v +v e -> rvolume [v'; w] <= rvolume [v; w] + rlength e * rlength w.
Proof. intros Lv Lv' Lw Le E. destruct (rvolume_height2 n v w Lv Lw) as (h & Lh & P & V & X). destruct (rvolume_height2 n v' w Lv' Lw) as (h' & Lh' & P' & V' & X'). rewrite V, V'. rewrite <- Rmult_plus_distr_r. apply Rmult_le_compat_r; [apply rlen_pos|].
  apply (height_le h' v' h e); try congruence; [symmetry; apply X'; auto|]. rewrite E, rdot_add_r, (X h' P' Lh') by congruence. reflexivity. Qed.
Lemma volume3_first n u u' e v w : length u = n -> length u' = n -> length v = n -> length w = n -> length e = n -> u' = u +v e -> rvolume [u'; v; w] <= rvolume [u; v; w] + rlength e * rvolume [v; w].
Proof. intros Lu Lu' Lv Lw Le E. destruct (rvolume_height3 n u v w Lu Lv Lw) as (h & Lh & P & Q & V & X). destruct (rvolume_height3 n u' v w Lu' Lv Lw) as (h' & Lh' & P' & Q' & V' & X'). rewrite V, V'. rewrite <- Rmult_plus_distr_r. apply Rmult_le_compat_r; [apply (volume2_bound n v w Lv Lw)|].
  apply (height_le h' u' h e); try congruence; [symmetry; apply X'; auto|]. rewrite E, rdot_add_r, (X h' P' Q' Lh') by congruence. reflexivity. Qed.
Lemma rotate2 v w : rvolume [v; w] = rvolume [w; v].
Proof. unfold rvolume. cbn [gramdet]. f_equal. unfold gram2, d2. ring. Qed.
Lemma rotate3 u v w : rvolume [u; v; w] = rvolume [v; w; u].
Proof. unfold rvolume. cbn [gramdet]. f_equal. unfold gram3, d3. ring. Qed.

(** the difference of two vectors *)
Definition rsub (a b : list R) : list R := a +v ((-1) *v b).
Lemma rsub_length a b : length a = length b -> length (rsub a b) = length a.
Proof. intros L. unfold rsub. rewrite radd_length; rewrite ?scale_length; auto. Qed.
Lemma rsub_add a b : length a = length b -> b +v (rsub a b) = a.
Proof. unfold rsub. revert b. induction a as [|x a IH]; intros [|y b] L; cbn in *; try discriminate; auto. rewrite IH by lia. f_equal. ring. Qed.
Lemma rsub_len_comm a b : length a = length b -> rlength (rsub a b) = rlength (rsub b a).
Proof. intros L. assert (E : rsub a b = (-1) *v rsub b a). { unfold rsub. revert b L. induction a as [|x a IH]; intros [|y b] L; cbn in *; try discriminate; auto. rewrite (IH b) by lia. f_equal. ring. } rewrite E, rlen_scale, Rabs_left by lra. ring. Qed.

Section Lipschitz.
  Variables (n : nat) (B d : R).
  Hypothesis B0 : 0 <= B.
  Hypothesis D0 : 0 <= d.
  Definition vclose (v v' : list R) : Prop := length v = n /\ length v' = n /\ rlength v <= B /\ rlength v' <= B /\ rlength (rsub v' v) <= d.
  Lemma vclose_sym v v' : vclose v v' -> vclose v' v.
  Proof. intros (A1 & A2 & A3 & A4 & A5). repeat split; auto. rewrite rsub_len_comm by congruence. exact A5. Qed.
  Lemma volume2_upper v w : length v = n -> length w = n -> rlength v <= B -> rlength w <= B -> rvolume [v; w] <= B * B.
  Proof. intros Lv Lw Bv Bw. destruct (volume2_bound n v w Lv Lw) as (_ & V). eapply Rle_trans; [exact V|]. apply Rmult_le_compat; auto; apply rlen_pos. Qed.
  Lemma volume_le : forall vs vs', Forall2 vclose vs vs' -> (length vs <= 3)%nat -> rvolume vs' <= rvolume vs + INR (length vs) * (B ^ (length vs - 1) * d).
  Proof. intros vs vs' F L. inversion F as [|u u' l l' C F']; subst; [cbn [length INR]; lra|].
    inversion F' as [|v v' m m' C' F'']; subst.
    - rewrite !rvolume1. cbn [length INR Nat.sub pow]. destruct C as (L1 & L2 & _ & _ & E). pose proof (rlen_add u (rsub u' u) ltac:(rewrite rsub_length; congruence)) as T. rewrite rsub_add in T by congruence. lra.
    - inversion F'' as [|w w' q q' C'' F3]; subst.
      + cbn [length INR Nat.sub pow]. destruct C as (L1 & L2 & B1 & B2 & E). destruct C' as (L1' & L2' & B1' & B2' & E').
        pose proof (volume2_first n u u' (rsub u' u) v L1 L2 L1' ltac:(rewrite rsub_length; congruence) ltac:(rewrite rsub_add; congruence)) as S1.
        pose proof (volume2_first n v v' (rsub v' v) u' L1' L2' L2 ltac:(rewrite rsub_length; congruence) ltac:(rewrite rsub_add; congruence)) as S2. rewrite (rotate2 v' u'), (rotate2 v u') in S2.
        assert (rlength (rsub u' u) * rlength v <= d * B) by (apply Rmult_le_compat; auto; apply rlen_pos). assert (rlength (rsub v' v) * rlength u' <= d * B) by (apply Rmult_le_compat; auto; apply rlen_pos). lra.
      + inversion F3 as [|x y q1 q2]; subst; [|cbn in L; lia]. cbn [length INR Nat.sub pow]. destruct C as (L1 & L2 & B1 & B2 & E). destruct C' as (L1' & L2' & B1' & B2' & E'). destruct C'' as (L1'' & L2'' & B1'' & B2'' & E'').
        pose proof (volume3_first n u u' (rsub u' u) v w L1 L2 L1' L1'' ltac:(rewrite rsub_length; congruence) ltac:(rewrite rsub_add; congruence)) as S1.
        pose proof (volume3_first n v v' (rsub v' v) w u' L1' L2' L1'' L2 ltac:(rewrite rsub_length; congruence) ltac:(rewrite rsub_add; congruence)) as S2. rewrite <- (rotate3 u' v' w), <- (rotate3 u' v w) in S2.
        pose proof (volume3_first n w w' (rsub w' w) u' v' L1'' L2'' L2 L2' ltac:(rewrite rsub_length; congruence) ltac:(rewrite rsub_add; congruence)) as S3. rewrite (rotate3 w' u' v'), (rotate3 w u' v') in S3.
        assert (T1 : rlength (rsub u' u) * rvolume [v; w] <= d * (B * B)) by (apply Rmult_le_compat; auto using rlen_pos, volume2_upper; apply (volume2_bound n); auto).
        assert (T2 : rlength (rsub v' v) * rvolume [w; u'] <= d * (B * B)) by (apply Rmult_le_compat; auto using rlen_pos, volume2_upper; apply (volume2_bound n); auto).
        assert (T3 : rlength (rsub w' w) * rvolume [u'; v'] <= d * (B * B)) by (apply Rmult_le_compat; auto using rlen_pos, volume2_upper; apply (volume2_bound n); auto). lra. Qed.
  Lemma volume_close vs vs' : Forall2 vclose vs vs' -> (length vs <= 3)%nat -> Rabs (rvolume vs' - rvolume vs) <= INR (length vs) * (B ^ (length vs - 1) * d).
  Proof. intros F L. assert (F' : Forall2 vclose vs' vs) by (clear - F; induction F; constructor; auto using vclose_sym). assert (E : length vs' = length vs) by (clear - F; induction F; cbn; auto). pose proof (volume_le vs vs' F L) as A. pose proof (volume_le vs' vs F' ltac:(lia)) as A'. rewrite E in A'. apply Rabs_le. lra. Qed.
  Lemma volume_upper vs : Forall (fun v => length v = n /\ rlength v <= B) vs -> (length vs <= 3)%nat -> 0 <= rvolume vs <= B ^ length vs.
  Proof. intros F L. split; [apply sqrt_pos|]. destruct vs as [|u [|v [|w [|]]]]; cbn [length] in *; try lia.
    - unfold rvolume. cbn [gramdet]. rewrite sqrt_1. cbn. lra.
    - rewrite rvolume1. cbn [pow]. rewrite Rmult_1_r. apply (Forall_inv F).
    - destruct (Forall_inv F) as (Lu & Bu). destruct (Forall_inv (Forall_inv_tail F)) as (Lv & Bv). cbn [pow]. rewrite Rmult_1_r. apply volume2_upper; auto.
    - destruct (Forall_inv F) as (Lu & Bu). destruct (Forall_inv (Forall_inv_tail F)) as (Lv & Bv). destruct (Forall_inv (Forall_inv_tail (Forall_inv_tail F))) as (Lw & Bw). cbn [pow]. rewrite Rmult_1_r. destruct (volume3_bound n u v w Lu Lv Lw) as (_ & V). eapply Rle_trans; [exact V|]. apply Rmult_le_compat; auto using rlen_pos, volume2_upper. apply (volume2_bound n); auto. Qed.
End Lipschitz.

(** ** the product of the singular values is the volume *)
Definition rprod (l : list R) : R := fold_right Rmult 1 l.
Lemma zero_length n : length (repeat 0 n) = n. Proof. apply repeat_length. Qed.
Lemma rdot_repeat n v : rdot (repeat 0 n) v = 0.
Proof. revert v. induction n as [|n IH]; intros [|x v]; cbn; auto. rewrite IH. ring. Qed.
Lemma d3_mul a b c d e f g h i a' b' c' d' e' f' g' h' i' :
  d3 (a * a' + b * d' + c * g') (a * b' + b * e' + c * h') (a * c' + b * f' + c * i')
     (d * a' + e * d' + f * g') (d * b' + e * e' + f * h') (d * c' + e * f' + f * i')
     (g * a' + h * d' + i * g') (g * b' + h * e' + i * h') (g * c' + h * f' + i * i')
  = d3 a b c d e f g h i * d3 a' b' c' d' e' f' g' h' i'.
Proof. unfold d3. ring. Qed.
Lemma comb_dot1 n a m x : length m = n -> length x = n -> rdot (rcombined (repeat 0 n) [a] [m]) x = a * rdot m x.
Proof. intros L Lx. cbn [rcombined]. rewrite rdot_add by (rewrite zero_length, scale_length; auto). rewrite rdot_repeat, rdot_scale. ring. Qed.
Lemma comb_dot2 n a b m1 m2 x : length m1 = n -> length m2 = n -> length x = n -> rdot (rcombined (repeat 0 n) [a; b] [m1; m2]) x = a * rdot m1 x + b * rdot m2 x.
Proof. intros L1 L2 Lx. cbn [rcombined]. assert (L : length (repeat 0 n +v (b *v m2)) = n) by (rewrite radd_length; rewrite ?zero_length, ?scale_length; auto). rewrite !rdot_add by (rewrite ?L, ?zero_length, ?scale_length; auto). rewrite rdot_repeat, !rdot_scale. ring. Qed.
Lemma comb_dot3 n a b c m1 m2 m3 x : length m1 = n -> length m2 = n -> length m3 = n -> length x = n -> rdot (rcombined (repeat 0 n) [a; b; c] [m1; m2; m3]) x = a * rdot m1 x + b * rdot m2 x + c * rdot m3 x.
Proof. intros L1 L2 L3 Lx. cbn [rcombined]. assert (L : length (repeat 0 n +v (c *v m3)) = n) by (rewrite radd_length; rewrite ?zero_length, ?scale_length; auto). assert (L' : length (repeat 0 n +v (c *v m3) +v (b *v m2)) = n) by (rewrite radd_length; rewrite ?L, ?zero_length, ?scale_length; auto). rewrite !rdot_add by (rewrite ?L, ?L', ?zero_length, ?scale_length; auto). rewrite rdot_repeat, !rdot_scale. ring. Qed.
Lemma comb_length n : forall a m, Forall (fun v => length v = n) m -> length (rcombined (repeat 0 n) a m) = n.
Proof. induction a as [|x a IH]; intros [|v m] F; cbn [rcombined]; try apply zero_length. rewrite radd_length; [apply IH; apply (Forall_inv_tail F)|]. rewrite scale_length, (Forall_inv F). apply IH. apply (Forall_inv_tail F). Qed.
Lemma comb_bound n B : 0 <= B -> forall a m, Forall (fun v => length v = n /\ rlength v <= B) m -> Forall (fun x => Rabs x <= 1) a -> rlength (rcombined (repeat 0 n) a m) <= INR (length a) * B.
Proof. intros B0. assert (Z : rlength (repeat 0 n) = 0) by (rewrite rlen_sq, rdot_repeat; apply sqrt_0). induction a as [|x a IH]; intros m F G; cbn [length]; [cbn [rcombined INR]; rewrite Z; lra|]. rewrite S_INR. destruct m as [|v m]; cbn [rcombined].
  - rewrite Z. pose proof (pos_INR (length a)). apply Rmult_le_pos; lra.
  - assert (Lm : Forall (fun v => length v = n) m) by (apply Forall_inv_tail in F; eapply Forall_impl; [|exact F]; cbn beta; tauto). destruct (Forall_inv F) as (Lv & Bv). pose proof (rlen_add (rcombined (repeat 0 n) a m) (x *v v) ltac:(rewrite comb_length, scale_length; auto)) as T. rewrite rlen_scale in T.
    specialize (IH m (Forall_inv_tail F) (Forall_inv_tail G)). pose proof (Forall_inv G) as Gx. cbn beta in Gx. assert (Rabs x * rlength v <= 1 * B) by (apply Rmult_le_compat; auto using Rabs_pos, rlen_pos). lra. Qed.

Lemma singular_values_facts n m s : Forall (fun v => length v = n) m -> (1 <= length m <= 3)%nat -> singular_values n m s ->
  length s = length m /\ rprod s = rvolume m /\ forall B, 0 <= B -> Forall (fun v => rlength v <= B) m -> Forall (fun x => 0 <= x <= 3 * B) s.
Proof. intros Lm K (u & Lu & Fu & On & Rw). cbv zeta in Rw. destruct Rw as (Fs & Pp). set (rows := map (fun a => rcombined (repeat 0 n) a m) u) in *.
  assert (Ls : length s = length m) by (rewrite <- Lu; unfold rows in Fs; clear - Fs; revert s Fs; induction u as [|a u IH]; intros s Fs; cbn in Fs; inversion Fs; subst; cbn; auto).
  assert (Ss : Forall (fun x => 0 <= x) s) by (clear - Fs; induction Fs; constructor; auto; subst; apply rlen_pos).
  split; auto. split.
  - destruct (rvolume_square m n Lm ltac:(lia)) as (V0 & V). apply sq_inj; auto; [clear - Ss; induction Ss; cbn; [lra|apply Rmult_le_pos; auto]|]. rewrite V. clear V V0.
    destruct m as [|m1 [|m2 [|m3 [|]]]]; cbn [length] in *; try lia.
    + destruct u as [|[|a [|]] [|]]; try discriminate Lu; pose proof (Forall_inv Fu) as X; try discriminate X. clear X. cbn [map] in rows. pose proof (On 0%nat 0%nat _ _ eq_refl eq_refl) as O1. cbn in O1. pose proof (Forall_inv Lm) as L1. cbn beta in L1.
      inversion Fs as [|? x ? s' E1 F1]; subst x. inversion F1; subst. cbn [rprod fold_right gramdet]. set (r1 := rcombined (repeat 0 (length m1)) [a] [m1]) in *. assert (Lr1 : length r1 = length m1) by (apply comb_length; auto).
      assert (Q : forall x, length x = length m1 -> rdot r1 x = a * rdot m1 x) by (intros x Lx; apply comb_dot1; auto). change (rlength r1 * 1 * (rlength r1 * 1) = rdot m1 m1). rewrite Rmult_1_r, rlen_square, (Q r1 Lr1), rdot_comm, (Q m1 eq_refl). rewrite <- Rmult_assoc. replace (a * a) with 1 by lra. ring.
    + destruct u as [|[|a [|b [|]]] [|[|c [|d [|]]] [|]]]; try discriminate Lu; pose proof (Forall_inv Fu) as X; try discriminate X; pose proof (Forall_inv (Forall_inv_tail Fu)) as X'; try discriminate X'. clear X X'. cbn [map] in rows.
      pose proof (On 0%nat 0%nat _ _ eq_refl eq_refl) as O1. pose proof (On 0%nat 1%nat _ _ eq_refl eq_refl) as O2. pose proof (On 1%nat 1%nat _ _ eq_refl eq_refl) as O3. cbn in O1, O2, O3.
      pose proof (Forall_inv Lm) as L1. pose proof (Forall_inv (Forall_inv_tail Lm)) as L2. cbn beta in L1, L2. pose proof (Pp 0%nat 1%nat _ _ eq_refl eq_refl ltac:(discriminate)) as P1.
      inversion Fs as [|? x ? s' E1 F1]; subst x. inversion F1 as [|? y ? s'' E2 F2]; subst y. inversion F2; subst. cbn [rprod fold_right gramdet].
      set (r1 := rcombined (repeat 0 (length m1)) [a; b] [m1; m2]) in *. set (r2 := rcombined (repeat 0 (length m1)) [c; d] [m1; m2]) in *.
      assert (Lr1 : length r1 = length m1) by (apply comb_length; auto). assert (Lr2 : length r2 = length m1) by (apply comb_length; auto).
      assert (Q : forall x, length x = length m1 -> rdot r1 x = a * rdot m1 x + b * rdot m2 x /\ rdot r2 x = c * rdot m1 x + d * rdot m2 x) by (intros x Lx; split; apply comb_dot2; auto).
      assert (Rr : rdot r1 r1 * rdot r2 r2 = d2 a b c d * d2 a b c d * gram2 m1 m2).
      { assert (T : rdot r1 r1 * rdot r2 r2 = d2 (rdot r1 r1) (rdot r1 r2) (rdot r2 r1) (rdot r2 r2)) by (unfold d2; rewrite P1; ring). rewrite T. destruct (Q r1 Lr1) as (-> & ->). destruct (Q r2 Lr2) as (-> & ->).
        rewrite (rdot_comm m1 r1), (rdot_comm m2 r1), (rdot_comm m1 r2), (rdot_comm m2 r2). destruct (Q m1 eq_refl) as (-> & ->). destruct (Q m2 L2) as (-> & ->). rewrite (rdot_comm m2 m1). unfold gram2, d2. rewrite (rdot_comm m2 m1). ring. }
      change (rlength r1 * (rlength r2 * 1) * (rlength r1 * (rlength r2 * 1)) = gram2 m1 m2). replace (rlength r1 * (rlength r2 * 1) * (rlength r1 * (rlength r2 * 1))) with ((rlength r1 * rlength r1) * (rlength r2 * rlength r2)) by ring. rewrite !rlen_square, Rr.
      assert (U : d2 a b c d * d2 a b c d = (a * a + (b * b + 0)) * (c * c + (d * d + 0)) - (a * c + (b * d + 0)) * (a * c + (b * d + 0))) by (unfold d2; ring). rewrite U, O1, O2, O3. ring.
    + destruct u as [|[|a [|b [|c [|]]]] [|[|d [|e [|f [|]]]] [|[|g [|h [|i [|]]]] [|]]]]; try discriminate Lu; pose proof (Forall_inv Fu) as X; try discriminate X; pose proof (Forall_inv (Forall_inv_tail Fu)) as X'; try discriminate X'; pose proof (Forall_inv (Forall_inv_tail (Forall_inv_tail Fu))) as X''; try discriminate X''. clear X X' X''. cbn [map] in rows.
      pose proof (On 0%nat 0%nat _ _ eq_refl eq_refl) as O11. pose proof (On 0%nat 1%nat _ _ eq_refl eq_refl) as O12. pose proof (On 0%nat 2%nat _ _ eq_refl eq_refl) as O13. pose proof (On 1%nat 1%nat _ _ eq_refl eq_refl) as O22. pose proof (On 1%nat 2%nat _ _ eq_refl eq_refl) as O23. pose proof (On 2%nat 2%nat _ _ eq_refl eq_refl) as O33. cbn in O11, O12, O13, O22, O23, O33.
      pose proof (Forall_inv Lm) as L1. pose proof (Forall_inv (Forall_inv_tail Lm)) as L2. pose proof (Forall_inv (Forall_inv_tail (Forall_inv_tail Lm))) as L3. cbn beta in L1, L2, L3.
      pose proof (Pp 0%nat 1%nat _ _ eq_refl eq_refl ltac:(discriminate)) as P12. pose proof (Pp 0%nat 2%nat _ _ eq_refl eq_refl ltac:(discriminate)) as P13. pose proof (Pp 1%nat 2%nat _ _ eq_refl eq_refl ltac:(discriminate)) as P23.
      inversion Fs as [|? x ? s' E1 F1]; subst x. inversion F1 as [|? y ? s'' E2 F2]; subst y. inversion F2 as [|? z ? s3 E3 F3]; subst z. inversion F3; subst. cbn [rprod fold_right gramdet].
      set (r1 := rcombined (repeat 0 (length m1)) [a; b; c] [m1; m2; m3]) in *. set (r2 := rcombined (repeat 0 (length m1)) [d; e; f] [m1; m2; m3]) in *. set (r3 := rcombined (repeat 0 (length m1)) [g; h; i] [m1; m2; m3]) in *.
      assert (Lr1 : length r1 = length m1) by (apply comb_length; auto). assert (Lr2 : length r2 = length m1) by (apply comb_length; auto). assert (Lr3 : length r3 = length m1) by (apply comb_length; auto).
      assert (Q : forall x, length x = length m1 -> rdot r1 x = a * rdot m1 x + b * rdot m2 x + c * rdot m3 x /\ rdot r2 x = d * rdot m1 x + e * rdot m2 x + f * rdot m3 x /\ rdot r3 x = g * rdot m1 x + h * rdot m2 x + i * rdot m3 x) by (intros x Lx; repeat split; apply comb_dot3; auto).
      assert (Rr : rdot r1 r1 * (rdot r2 r2 * rdot r3 r3) = d3 a b c d e f g h i * (gram3 m1 m2 m3 * d3 a d g b e h c f i)).
      { assert (T : rdot r1 r1 * (rdot r2 r2 * rdot r3 r3) = d3 (rdot r1 r1) (rdot r1 r2) (rdot r1 r3) (rdot r2 r1) (rdot r2 r2) (rdot r2 r3) (rdot r3 r1) (rdot r3 r2) (rdot r3 r3)) by (unfold d3; rewrite P12, P13, P23; ring). rewrite T. clear T.
        destruct (Q r1 Lr1) as (-> & -> & ->). destruct (Q r2 Lr2) as (-> & -> & ->). destruct (Q r3 Lr3) as (-> & -> & ->). rewrite d3_mul. f_equal.
        rewrite (rdot_comm m1 r1), (rdot_comm m1 r2), (rdot_comm m1 r3), (rdot_comm m2 r1), (rdot_comm m2 r2), (rdot_comm m2 r3), (rdot_comm m3 r1), (rdot_comm m3 r2), (rdot_comm m3 r3).
        destruct (Q m1 eq_refl) as (-> & -> & ->). destruct (Q m2 L2) as (-> & -> & ->). destruct (Q m3 L3) as (-> & -> & ->). unfold gram3. rewrite <- d3_mul. rewrite (rdot_comm m2 m1), (rdot_comm m3 m1), (rdot_comm m3 m2). f_equal; ring. }
      change (rlength r1 * (rlength r2 * (rlength r3 * 1)) * (rlength r1 * (rlength r2 * (rlength r3 * 1))) = gram3 m1 m2 m3). replace (rlength r1 * (rlength r2 * (rlength r3 * 1)) * (rlength r1 * (rlength r2 * (rlength r3 * 1)))) with ((rlength r1 * rlength r1) * ((rlength r2 * rlength r2) * (rlength r3 * rlength r3))) by ring. rewrite !rlen_square, Rr.
      assert (U : d3 a b c d e f g h i * d3 a d g b e h c f i = 1).
      { rewrite <- d3_mul. replace (a * a + b * b + c * c) with 1 by lra. replace (a * d + b * e + c * f) with 0 by lra. replace (a * g + b * h + c * i) with 0 by lra. replace (d * a + e * b + f * c) with 0 by lra. replace (d * d + e * e + f * f) with 1 by lra. replace (d * g + e * h + f * i) with 0 by lra. replace (g * a + h * b + i * c) with 0 by lra. replace (g * d + h * e + i * f) with 0 by lra. replace (g * g + h * h + i * i) with 1 by lra. unfold d3. ring. }
      rewrite (Rmult_comm (gram3 m1 m2 m3)), <- Rmult_assoc, U. ring.
  - intros B B0 Fb. assert (Fm : Forall (fun v => length v = n /\ rlength v <= B) m) by (clear - Lm Fb; induction Fb; constructor; [split; auto; apply (Forall_inv Lm)|apply IHFb; apply (Forall_inv_tail Lm)]).
    assert (U1 : Forall (fun a => Forall (fun x => Rabs x <= 1) a) u).
    { apply Forall_forall. intros a Ia. apply In_nth_error in Ia as (i & Hi). pose proof (On i i a a Hi Hi) as Q. rewrite Nat.eqb_refl in Q. assert (Q' : rdot a a <= 1) by lra. clear - Q'. revert Q'. induction a as [|x a IH]; cbn [rdot]; intros Q; constructor.
      - pose proof (rdot_nonneg a). apply Rabs_le. split; nra.
      - apply IH. assert (0 <= x * x) by apply Rle_0_sqr. lra. }
    apply Forall_forall. intros x Ix. split; [rewrite Forall_forall in Ss; auto|]. 
    assert (G : forall u0, Forall (fun a => length a = length m) u0 -> Forall (fun a => Forall (fun x => Rabs x <= 1) a) u0 -> forall s0, Forall2 (fun r x => rlength r = x) (map (fun a => rcombined (repeat 0 n) a m) u0) s0 -> In x s0 -> x <= 3 * B).
    { induction u0 as [|a u0 IH]; intros G1 G2 s0 F0 I0; inversion F0 as [|? y ? s1 E F1]; subst; [destruct I0|]. destruct I0 as [<-|I0]; [|apply (IH (Forall_inv_tail G1) (Forall_inv_tail G2) s1 F1 I0)].
      eapply Rle_trans; [apply (comb_bound n B B0 a m Fm (Forall_inv G2))|]. apply Rmult_le_compat_r; auto. pose proof (Forall_inv G1) as La. cbn beta in La. rewrite La. replace 3 with (INR 3) by (cbn; lra). apply le_INR. lia. }
    exact (G u Fu U1 s Fs Ix). Qed.
