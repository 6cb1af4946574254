(** The volume test for local dimensions in double precision (C74). *)
From Coq Require Import ZArith Reals Psatz List Permutation.
From Flocq Require Import Core BinarySingleNaN.
From Verif Require Import Base BaseFacts CoordSys CoordSysR Graph SpecGraph GraphFacts SpecCluster Dimension Float FloatFacts PropFloat FloatVector FloatVectorFacts FloatMin FloatCell SpecFloatCell FloatCellNum FloatDistNum FloatStepNum FloatStepFacts PropFloatVector
  FloatCluster SpecFloatCluster FloatClusterFacts PropFloatCluster FloatIdentify SpecFloatIdentify FloatSumFacts FloatAverage FloatIdentifyFacts FloatLineNum SpecFloatDim VolumeReal FloatDimNum FloatErrNum.
From Coq Require Import Lra.
Import ListNotations.
Open Scope list_scope.
Open Scope R_scope.

Lemma rlength_nth n v : length v = n -> rlength v = sqrt (rs n (fun i => nth i v 0 ^ 2)).
Proof. intros <-. unfold rlength. f_equal. induction v as [|x v IH]; [reflexivity|]. cbn [map fold_right length]. rewrite rs_succ, IH. reflexivity. Qed.
Lemma nth_rsub : forall a b i, length a = length b -> nth i (rsub a b) 0 = nth i a 0 - nth i b 0.
Proof. unfold rsub. induction a as [|x a IH]; intros [|y b] [|i] L; cbn in *; try discriminate; try lra. rewrite IH by lia. reflexivity. Qed.
Lemma image_diff_length : forall boxes p q ks, length p = length boxes -> length q = length boxes -> length ks = length boxes -> length (image_diff boxes p q ks) = length boxes.
Proof. induction boxes as [|b boxes IH]; intros [|x p] [|y q] [|k ks] L1 L2 L3; cbn in *; try discriminate; auto. Qed.
Lemma nth_image_diff : forall boxes p q ks i, length p = length boxes -> length q = length boxes -> length ks = length boxes -> (i < length boxes)%nat ->
  nth i (image_diff boxes p q ks) 0 = off boxes p q (fun i => nth i ks 0%Z) i.
Proof. unfold off, sz. induction boxes as [|b boxes IH]; intros [|x p] [|y q] [|k ks] [|i] L1 L2 L3 Hi; cbn in *; try discriminate; try lia; auto. apply (IH p q ks i); lia. Qed.
Lemma forall_nthZ (P : Z -> Prop) (l : list Z) : (forall i, (i < length l)%nat -> P (nth i l 0%Z)) -> Forall P l.
Proof. intros H. apply Forall_forall. intros x Hx. destruct (In_nth l x 0%Z Hx) as (i & Hi & <-). auto. Qed.
Lemma rs_abs_bound n a e : (forall i, (i < n)%nat -> Rabs (a i) <= e i) -> sqrt (rs n (fun i => a i ^ 2)) <= rs n e.
Proof. intros H. assert (E0 : 0 <= rs n e) by (apply rs_nonneg; intros i Hi; specialize (H i Hi); pose proof (Rabs_pos (a i)); lra). apply rs_sq_bound; auto. pose proof (rs_triangle n a (fun _ => 0) e) as T. cbv beta in T. assert (Z : rs n (fun _ => 0 ^ 2) = 0) by (rewrite rs_const; ring). rewrite Z, sqrt_0, Rplus_0_l in T. apply T. intros i Hi. rewrite Rminus_0_r. auto. Qed.
(** shorter than [m] up to [e] in every coordinate *)
Lemma rs_shorter n a m e d : 0 <= d -> (forall i, (i < n)%nat -> 0 <= e i /\ Rabs (a i) <= Rabs (m i) + e i) -> rs n (fun i => m i ^ 2) <= d ^ 2 -> sqrt (rs n (fun i => a i ^ 2)) <= d + rs n e.
Proof. intros D H B. assert (E0 : 0 <= rs n e) by (apply rs_nonneg; intros i Hi; apply (H i Hi)). apply rs_sq_bound; [lra|].
  set (m' := fun i => Rmin (Rabs (a i)) (Rabs (m i))). pose proof (rs_triangle n (fun i => Rabs (a i)) m' e) as T. cbv beta in T.
  assert (Ea : rs n (fun i => Rabs (a i) ^ 2) = rs n (fun i => a i ^ 2)) by (apply rs_ext; intros i _; apply pow2_abs). rewrite Ea in T.
  eapply Rle_trans; [apply T|].
  - intros i Hi. destruct (H i Hi) as (E & A). unfold m'. apply abs_le. unfold Rmin. destruct (Rle_dec _ _); lra.
  - apply pow_incr. split; [pose proof (sqrt_pos (rs n (fun i => m' i ^ 2))); lra|]. apply Rplus_le_compat_r. apply rs_sq_bound; auto. eapply Rle_trans; [|exact B]. apply rs_le. intros i Hi. rewrite <- (pow2_abs (m i)). apply pow_incr. unfold m', Rmin. pose proof (Rabs_pos (a i)). pose proof (Rabs_pos (m i)). destruct (Rle_dec _ _); lra. Qed.

Section Vectors.
  Variables (per : bool) (boxes : list (double * double)).
  Hypothesis Gb : Forall good_box boxes.
  Hypothesis Lb : (length boxes <= 64)%nat.
  Hypothesis Hb : Forall (fun b => Rabs (B2R (fst b)) <= bpow radix2 20 /\ Rabs (B2R (snd b)) <= bpow radix2 20) boxes.
  Notation z0 := (B754_zero false).
  Let T := total_size boxes.
  Lemma size_bounds i : (i < length boxes)%nat -> good_box (nth i boxes nob) /\ pw (-400) <= sz boxes i <= pw 21.
  Proof. intros Hi. unfold sz. pose proof Gb as G. pose proof Hb as H. rewrite Forall_forall in G, H. specialize (G _ (nth_In boxes nob Hi)). specialize (H _ (nth_In boxes nob Hi)). destruct H as (B1 & B2). split; auto. split; [apply G|]. destruct G as (F1 & F2 & L & _). apply (size_small _ _ F1 F2); auto. Qed.
  Lemma vector_accurate p q : moderate_pos boxes p -> moderate_pos boxes q -> exists v e, fvector per boxes q p = Ok v /\ length v = length boxes /\ Forall (fun x => fin x /\ Rabs (val x) <= pw 400) v /\
    leads per boxes p q e /\ length e = length boxes /\ rlength (rsub (place v) e) <= 5 / 4 * (pw (-41) * T).
  Proof. intros (Gp & Mp) (Gq & Mq). pose proof (forall2_len _ _ _ Gp) as Lp. pose proof (forall2_len _ _ _ Gq) as Lq. symmetry in Lp, Lq.
    assert (K : exists v k, fvector per boxes q p = Ok v /\ length v = length boxes /\ (per = false -> forall i, k i = 0%Z) /\ forall i, (i < length boxes)%nat ->
      fin (nth i v z0) /\ Rabs (val (nth i v z0)) <= pw 400 /\ Rabs (val (nth i v z0) - off boxes (place p) (place q) k i) <= 5 / 4 * (pw (-41) * sz boxes i) /\ (per = true -> Rabs (val (nth i v z0)) <= sz boxes i / 2 + pw (-41) * sz boxes i)).
    { unfold fvector. destruct per eqn:Per.
      - assert (Ch : exists k, forall i, (i < length boxes)%nat -> Rabs (val (fconnect (nth i boxes nob) (nth i q z0) (nth i p z0)) - (val (nth i p z0) - val (nth i q z0) - IZR (k i) * sz boxes i)) <= 5 / 4 * (pw (-41) * sz boxes i)).
        { apply (choose_nat (fun i z => Rabs (val (fconnect (nth i boxes nob) (nth i q z0) (nth i p z0)) - (val (nth i p z0) - val (nth i q z0) - IZR z * sz boxes i)) <= 5 / 4 * (pw (-41) * sz boxes i))). intros i Hi. destruct (size_bounds i Hi) as (G & _).
          destruct (connect_accurate (nth i boxes nob) (nth i q z0) (nth i p z0) G (nth_good boxes q i Gq Hi) (nth_good boxes p i Gp Hi)) as (_ & _ & j & A). cbv zeta in A. change (val (fsize (fst (nth i boxes nob)) (snd (nth i boxes nob)))) with (sz boxes i) in A. exists (- j)%Z. rewrite opp_IZR. 
          match goal with |- Rabs ?x <= _ => match type of A with Rabs ?y <= _ => replace x with y by ring end end. exact A. }
        destruct Ch as (k & Hk). exists (per_coordinate fconnect boxes q p), k. split; [|split; [apply per_coordinate_length; auto|split; [discriminate|]]].
        + apply assertion_holds; auto. apply (moderate_pair boxes (bpow radix2 20) [q; p]); auto using Rle_refl; [left; reflexivity|right; left; reflexivity].
        + intros i Hi. rewrite (nth_per_coordinate fconnect z0 boxes q p i) by auto. destruct (size_bounds i Hi) as (G & S1 & S2). destruct (connect_accurate (nth i boxes nob) (nth i q z0) (nth i p z0) G (nth_good boxes q i Gq Hi) (nth_good boxes p i Gp Hi)) as (F & B & _). cbv zeta in B. change (val (fsize (fst (nth i boxes nob)) (snd (nth i boxes nob)))) with (sz boxes i) in B.
          split; auto. pose proof (pw_pos (-41)) as P41. assert (P : pw (-41) <= / 2) by (change (/ 2) with (pw (-1)); apply pw_le; lia). pose proof (pw_pos (-400)). assert (pw (-41) * sz boxes i <= / 2 * sz boxes i) by (apply Rmult_le_compat_r; lra). split; [eapply Rle_trans; [exact B|]; apply Rle_trans with (pw 21); [lra|apply pw_le; lia]|]. split; [unfold off; rewrite !nth_place; exact (Hk i Hi)|]. intros _. exact B.
      - exists (map2 fsub p q), (fun _ => 0%Z). split; auto. split; [rewrite map2_length by congruence; exact Lp|]. split; auto. intros i Hi. rewrite (nth_map2 fsub p q i z0 z0 z0) by (rewrite ?Lp; auto; congruence). destruct (size_bounds i Hi) as (G & S1 & S2).
        destruct (nth_good boxes p i Gp Hi) as (Fp & Bp). destruct (nth_good boxes q i Gq Hi) as (Fq & Bq). change (fbox_size (nth i boxes nob)) with (sz boxes i) in Bp, Bq. assert (B : Rabs (val (nth i p z0) - val (nth i q z0)) <= pw 11 * sz boxes i) by (change 11%Z with (10 + 1)%Z; rewrite pow_succ; rewrite abs_le in *; lra).
        destruct (diff_val (nth i boxes nob) G _ _ Fp Fq B) as (Fd & Ed). change (val (fsize (fst (nth i boxes nob)) (snd (nth i boxes nob)))) with (sz boxes i) in Ed. pose proof (pw_pos (-400)) as P4. pose proof (pw_pos (-41)) as P41. split; [exact Fd|]. split; [|split; [|discriminate]].
        + apply Rle_trans with (pw 12 * sz boxes i); [|apply Rle_trans with (pw 12 * pw 21); [apply Rmult_le_compat_l; [left; apply pw_pos|apply S2]|rewrite pw_mul; apply pw_le; lia]]. change 12%Z with (11 + 1)%Z. rewrite pow_succ. assert (pw (-41) <= pw 11) by (apply pw_le; lia). assert (pw (-41) * sz boxes i <= pw 11 * sz boxes i) by (apply Rmult_le_compat_r; lra). rewrite abs_le in *. lra.
        + unfold off. rewrite !nth_place. match goal with |- Rabs ?x <= _ => replace x with (val (fsub (nth i p z0) (nth i q z0)) - (val (nth i p z0) - val (nth i q z0))) by ring end. assert (0 < pw (-41) * sz boxes i) by (apply Rmult_lt_0_compat; lra). eapply Rle_trans; [exact Ed|]. lra. }
    destruct K as (v & k & Ev & Lv & Kz & V). set (ks := map k (seq 0 (length boxes))). assert (Lk : length ks = length boxes) by (unfold ks; rewrite map_length, seq_length; reflexivity).
    assert (Nk : forall i, (i < length boxes)%nat -> nth i ks 0%Z = k i) by (intros i Hi; unfold ks; rewrite (nth_indep _ 0%Z (k 0%nat)) by (rewrite map_length, seq_length; exact Hi); rewrite map_nth, seq_nth by exact Hi; reflexivity).
    assert (Lpp : length (place p) = length boxes) by (unfold place; rewrite map_length; exact Lp). assert (Lpq : length (place q) = length boxes) by (unfold place; rewrite map_length; exact Lq). assert (Lpv : length (place v) = length boxes) by (unfold place; rewrite map_length; exact Lv).
    set (e := image_diff boxes (place p) (place q) ks). assert (Le : length e = length boxes) by (apply image_diff_length; auto).
    assert (Ne : forall i, (i < length boxes)%nat -> nth i e 0 = off boxes (place p) (place q) k i) by (intros i Hi; unfold e; rewrite nth_image_diff by auto; unfold off; rewrite Nk by exact Hi; reflexivity).
    exists v, e. split; auto. split; auto. split; [apply forall_nth; intros i Hi; rewrite Lv in Hi; destruct (V i Hi) as (A1 & A2 & _); auto|]. split; [split|split; auto].
    - exists ks. split; auto. split; auto. intros Pf. apply forall_nthZ. intros i Hi. rewrite Lk in Hi. rewrite (Nk i Hi). apply Kz. exact Pf.
    - intros d D W. apply within_place_iff in W. apply within_off in W as (k' & Z' & W); auto. rewrite (rlength_nth (length boxes) e Le).
      assert (X : rs (length boxes) (fun i => 9 / 2 * (pw (-41) * sz boxes i)) <= pw (-38) * T). { rewrite rs_scal, rs_scal, <- total_rs. fold T. assert (E : pw (-38) = 8 * pw (-41)) by (change 8 with (pw 3); rewrite pw_mul; reflexivity). rewrite E. assert (0 <= T) by (unfold T; rewrite total_rs; apply rs_nonneg; intros i Hi; destruct (size_bounds i Hi) as (_ & S & _); pose proof (pw_pos (-400)); lra). pose proof (pw_pos (-41)). assert (0 <= pw (-41) * T) by (apply Rmult_le_pos; lra). lra. }
      eapply Rle_trans; [apply (rs_shorter (length boxes) (fun i => nth i e 0) (fun i => off boxes (place p) (place q) k' i) (fun i => 9 / 2 * (pw (-41) * sz boxes i)) d D)|apply Rplus_le_compat_l; exact X]; [|exact W].
      intros i Hi. destruct (size_bounds i Hi) as (_ & S & _). pose proof (pw_pos (-400)). pose proof (pw_pos (-41)). assert (P0 : 0 < pw (-41) * sz boxes i) by (apply Rmult_lt_0_compat; lra). split; [lra|]. rewrite (Ne i Hi). destruct (V i Hi) as (_ & _ & V1 & V2). set (s := sz boxes i) in *. set (t := pw (-41) * s) in *.
      destruct per eqn:Per.
      + specialize (V2 eq_refl). assert (Hz : (k i = k' i \/ k i + 1 <= k' i \/ k' i + 1 <= k i)%Z) by lia. unfold off in *. fold s in V1 |- *. set (x := nth i (place p) 0 - nth i (place q) 0) in *. apply abs_le in V1, V2.
        assert (B : Rabs (x - IZR (k i) * s) <= s / 2 + 9 / 4 * t) by (apply abs_le; lra). destruct Hz as [->|[Hz|Hz]]; [lra| |]; apply IZR_le in Hz; rewrite plus_IZR in Hz.
        * assert (IZR (k i) * s + s <= IZR (k' i) * s) by (replace (IZR (k i) * s + s) with ((IZR (k i) + 1) * s) by ring; apply Rmult_le_compat_r; lra). assert (Q : x - IZR (k' i) * s <= - (s / 2) + 9 / 4 * t) by (apply abs_le in B; lra). pose proof (Rle_abs (- (x - IZR (k' i) * s))) as Y. rewrite Rabs_Ropp in Y. lra.
        * assert (IZR (k' i) * s + s <= IZR (k i) * s) by (replace (IZR (k' i) * s + s) with ((IZR (k' i) + 1) * s) by ring; apply Rmult_le_compat_r; lra). assert (Q : s / 2 - 9 / 4 * t <= x - IZR (k' i) * s) by (apply abs_le in B; lra). pose proof (Rle_abs (x - IZR (k' i) * s)) as Y. lra.
      + assert (E : off boxes (place p) (place q) k i = off boxes (place p) (place q) k' i) by (unfold off; rewrite (Kz eq_refl i), (Z' eq_refl i); reflexivity). rewrite E. lra.
    - rewrite (rlength_nth (length boxes)) by (rewrite rsub_length; congruence). replace (5 / 4 * (pw (-41) * T)) with (rs (length boxes) (fun i => 5 / 4 * (pw (-41) * sz boxes i))) by (rewrite rs_scal, rs_scal, <- total_rs; reflexivity).
      apply (rs_abs_bound (length boxes) (fun i => nth i (rsub (place v) e) 0)). intros i Hi. rewrite nth_rsub by congruence. rewrite (Ne i Hi), nth_place. apply (V i Hi). Qed.
End Vectors.

Lemma sequence_forall2 {A B} (f : A -> res B) : forall l vs, sequence (map f l) = Ok vs -> Forall2 (fun x v => f x = Ok v) l vs.
Proof. induction l as [|x l IH]; cbn [map sequence]; intros vs H; [injection H as <-; constructor|]. destruct (f x) as [v|] eqn:E; [|discriminate]. cbn [bind] in H. destruct (sequence (map f l)) as [vs'|]; [|discriminate]. cbn [bind] in H. injection H as <-. constructor; auto. Qed.
Lemma place_length v : length (place v) = length v. Proof. apply map_length. Qed.
Lemma rlength_sub_le a b : length a = length b -> rlength a <= rlength b + rlength (rsub a b).
Proof. intros L. pose proof (rlen_add b (rsub a b) ltac:(rewrite rsub_length; auto)) as H. rewrite rsub_add in H by exact L. exact H. Qed.

Section Volume.
  Variables (env : fenvironment) (per : bool) (boxes : list (double * double)) (f : R).
  Hypothesis Gb : Forall good_box boxes.
  Hypothesis Lb : (length boxes <= 64)%nat.
  Hypothesis Hb : Forall (fun b => Rabs (B2R (fst b)) <= bpow radix2 20 /\ Rabs (B2R (snd b)) <= bpow radix2 20) boxes.
  Hypothesis f_range : pw (-100) <= f <= pw 20.
  Let T := total_size boxes.
  Hypothesis T_small : pw (-15) * T <= f.
  Lemma T_f : 0 <= T /\ pw (-38) * T <= pw (-23) * f /\ pw (-41) * T <= pw (-26) * f.
  Proof. assert (T0 : 0 <= T) by (unfold T; rewrite total_rs; apply rs_nonneg; intros i Hi; destruct (size_bounds boxes Gb Hb i Hi) as (_ & S & _); pose proof (pw_pos (-400)); lra). split; auto.
    split; [replace (pw (-38)) with (pw (-23) * pw (-15)) by (rewrite pw_mul; reflexivity)|replace (pw (-41)) with (pw (-26) * pw (-15)) by (rewrite pw_mul; reflexivity)]; rewrite Rmult_assoc; apply Rmult_le_compat_l; auto; left; apply pw_pos. Qed.
  (** the vectors *)
  Lemma tuple_vectors p t : moderate_pos boxes p -> Forall (fun q => moderate_pos boxes q /\ within_dist per boxes p q (3 / 2 * f)) t ->
    exists vs es, sequence (map (fun q => fvector per boxes q p) t) = Ok vs /\ length vs = length t /\ Forall (fun v => length v = length boxes) vs /\
      Forall2 (leads per boxes p) t es /\ Forall2 (vclose (length boxes) (2 * f) (5 / 4 * (pw (-26) * f))) es (map place vs).
  Proof. intros Mp. destruct T_f as (T0 & T1 & T2). pose proof (f_pos f f_range) as f0. induction t as [|q t IH]; intros F; [exists [], []; repeat split; constructor|].
    destruct (IH (Forall_inv_tail F)) as (vs & es & E & L & Lv & Ld & Cl). destruct (Forall_inv F) as (Mq & W). destruct (vector_accurate per boxes Gb Lb Hb p q Mp Mq) as (v & e & Ev & Lv1 & _ & Le & Le1 & De).
    exists (v :: vs), (e :: es). cbn [map sequence length]. rewrite Ev, E. cbn [bind]. split; auto. split; auto. split; auto. split; [constructor; auto|]. constructor; auto.
    fold T in De. destruct Le as (_ & Le). specialize (Le (3 / 2 * f) ltac:(lra) W). fold T in Le. change (bpow radix2 (-38) * total_size boxes) with (pw (-38) * T) in Le.
    assert (S23 : pw (-23) <= / 8) by (change (/ 8) with (pw (-3)); apply pw_le; lia). assert (S26 : pw (-26) <= / 8) by (change (/ 8) with (pw (-3)); apply pw_le; lia). assert (pw (-23) * f <= / 8 * f) by (apply Rmult_le_compat_r; lra). assert (pw (-26) * f <= / 8 * f) by (apply Rmult_le_compat_r; lra).
    assert (Lp : length (place v) = length e) by (rewrite place_length; congruence). pose proof (rlength_sub_le (place v) e Lp) as S. unfold vclose. rewrite place_length. repeat split; auto; lra. Qed.
  (** the singular value of a single vector *)
  Lemma svd_single (v : list double) : good_fenvironment env -> v <> [] -> (length v <= 64)%nat -> Forall (fun x => fin x /\ Rabs (val x) <= pw 400) v -> accurate_svd_of (fe_svd env) (length v) [v].
  Proof. intros Env Ne L F. destruct Env as (_ & _ & _ & _ & _ & _ & Sv & _). destruct (Sv v Ne L F) as (s & Es & Fs & S0 & As). change (map B2R v) with (place v) in As. exists [s], [rlength (place v)]. split; auto. split; auto. split.
    - exists [[1]]. split; auto. split; [repeat constructor|]. split; [intros [|[|i]] [|[|j]] a b Ha Hb'; try discriminate; injection Ha as <-; injection Hb' as <-; cbn; ring|].
      assert (E : rcombined (repeat 0 (length v)) [1] (map place [v]) = place v). { cbn [map rcombined]. rewrite <- (place_length v). generalize (place v). clear. induction l as [|x l IH]; [reflexivity|]. cbn [length repeat map radd]. rewrite IH. f_equal. ring. }
      cbn [map]. cbn [map] in E. rewrite E. split; [repeat constructor|]. intros [|[|i]] [|[|j]] a b Ha Hb' N; try discriminate. elim N. reflexivity.
    - constructor; [|constructor]. cbn [fold_right]. rewrite Rplus_0_r. auto. Qed.
  (** the calculated volume *)
  Definition evol : R := / 4000000.
  Lemma volume_accurate p t w : moderate_pos boxes p -> Forall (fun q => moderate_pos boxes q /\ within_dist per boxes p q (3 / 2 * f)) t -> (1 <= length t <= 3)%nat ->
    (forall vs, Forall2 (fun q v => fvector per boxes q p = Ok v) t vs -> accurate_svd_of (fe_svd env) (length boxes) vs) ->
    fget_volume env per boxes p t = Ok w -> fin w /\ 0 <= val w /\ exists vol, rconnected_volume per boxes p t vol /\ 0 <= vol <= (2 * f) ^ length t /\ Rabs (val w - vol) <= evol * f ^ length t.
  Proof. intros Mp Ft K Sv H. destruct (tuple_vectors p t Mp Ft) as (vs & es & E & Lv & Fv & Ld & Cl). unfold fget_volume in H. rewrite E in H. cbn [bind] in H. pose proof (f_pos f f_range) as f0.
    destruct (Sv vs (sequence_forall2 _ _ _ E)) as (s & exact & Es & Ls & Sg & As). assert (Es' : fe_svd env vs = Ok s) by exact Es. rewrite Es' in H. cbn [bind] in H. assert (Lt : (length s <? length t)%nat = false) by (apply Nat.ltb_ge; rewrite Ls; rewrite Lv; apply Nat.le_refl). rewrite Lt in H. injection H as <-.
    assert (Fm : Forall (fun v => length v = length boxes) (map place vs)) by (clear - Fv; induction Fv; cbn [map]; constructor; auto; rewrite place_length; auto). assert (Lm : length (map place vs) = length t) by (rewrite map_length; exact Lv).
    assert (Bm : Forall (fun v => rlength v <= 2 * f) (map place vs)) by (clear - Cl; induction Cl as [|a b la lb C Cl IH]; constructor; auto; apply C).
    destruct (singular_values_facts (length boxes) (map place vs) exact Fm ltac:(rewrite Lm; exact K) Sg) as (Lx & Px & Bx). specialize (Bx (2 * f) ltac:(lra) Bm).
    assert (Sx : 0 <= fold_right Rplus 0 exact <= 18 * f).
    { rewrite Lm in Lx. assert (L3 : (length exact <= 3)%nat) by (rewrite Lx; apply K). clear - Bx L3 f0. assert (G : 0 <= fold_right Rplus 0 exact <= INR (length exact) * (6 * f)). { clear L3. induction Bx as [|x l B Bx IH]; [cbn; lra|]. cbn [fold_right length]. rewrite S_INR. lra. } apply (le_INR _ 3) in L3. replace (INR 3) with 3 in L3 by (cbn; lra). assert (INR (length exact) * (6 * f) <= 3 * (6 * f)) by (apply Rmult_le_compat_r; lra). lra. }
    set (d := pw (-35) * f). assert (D : pw (-40) * fold_right Rplus 0 exact + pw (-500) <= d).
    { assert (A : pw (-40) * fold_right Rplus 0 exact <= pw (-40) * (18 * f)) by (apply Rmult_le_compat_l; [left; apply pw_pos|apply Sx]). assert (B : pw (-500) <= pw (-40) * f) by (apply Rle_trans with (pw (-40) * pw (-100)); [rewrite pw_mul; apply pw_le; lia|apply Rmult_le_compat_l; [left; apply pw_pos|apply f_range]]). unfold d. replace (pw (-35)) with (32 * pw (-40)) by (change 32 with (pw 5); rewrite pw_mul; reflexivity). assert (0 < pw (-40) * f) by (apply Rmult_lt_0_compat; [apply pw_pos|lra]). lra. }
    assert (D1 : 0 <= d <= / 30000000000 * f) by (split; [unfold d; apply Rmult_le_pos; [left; apply pw_pos|lra]|apply Rmult_le_compat_r; [lra|]; change (pw (-35)) with (/ 34359738368); lra]).
    assert (Cs : Forall2 (fun x y => fin x /\ 0 <= val x <= 7 * f /\ 0 <= y <= 7 * f /\ Rabs (val x - y) <= d) s exact).
    { assert (L : length s = length exact) by congruence. clear - As Bx D D1 f0 L. set (S := fold_right Rplus 0 exact) in *. clearbody S. revert Bx. induction As as [|x y s e (F & X & A) As IH]; intros Bx; constructor; [|apply IH; [cbn in L; lia|apply (Forall_inv_tail Bx)]]. pose proof (Forall_inv Bx) as By. cbn beta in By. change (B2R x) with (val x) in *. change (bpow radix2 (-40)) with (pw (-40)) in A. change (bpow radix2 (-500)) with (pw (-500)) in A.
      assert (A' : Rabs (val x - y) <= d) by lra. assert (A1 := proj1 (abs_le _ _) A'). repeat split; auto; lra. }
    assert (Fs : Forall (fun x => fin x /\ 0 <= val x <= 7 * f) s) by (clear - Cs; induction Cs as [|x y l l' (A & B & _) C IH]; constructor; auto).
    destruct (product_accurate f f_range s ltac:(rewrite Ls, Lv; apply K) Fs) as (Fw & W0 & Pw). cbv zeta in Fw, W0, Pw. split; auto. split; auto.
    assert (Pc : Forall2 (fun x y => 0 <= x <= 7 * f /\ 0 <= y <= 7 * f /\ Rabs (x - y) <= d) (map val s) exact) by (clear - Cs; induction Cs as [|x y l l' (A & B & C & D) F IH]; cbn [map]; constructor; auto).
    destruct (product_close (7 * f) d ltac:(lra) ltac:(lra) _ _ Pc) as (_ & _ & Pd). assert (Lst : length s = length t) by exact (eq_trans Ls Lv). assert (Lmv : length (map val s) = length t) by (rewrite map_length; exact Lst). rewrite Lmv in Pd.
    assert (Fe : Forall (fun v => length v = length boxes /\ rlength v <= 2 * f) es) by (clear - Cl; induction Cl as [|a b la lb C Cl IH]; constructor; auto; split; apply C). assert (Le : length es = length t) by (clear - Ld; induction Ld; cbn; auto).
    assert (Fe' : Forall (fun v => length v = length boxes) es) by (eapply Forall_impl; [|exact Fe]; cbn beta; tauto).
    exists (rvolume es). split; [exists es; split; auto; apply (rspanned_volume (length boxes)); auto; rewrite Le; apply K|]. split; [rewrite <- Le; apply (volume_upper (length boxes)); auto; rewrite Le; apply K|].
    assert (C26 : 0 <= 5 / 4 * (pw (-26) * f)) by (assert (0 < pw (-26) * f) by (apply Rmult_lt_0_compat; [apply pw_pos|lra]); lra).
    pose proof (volume_close (length boxes) (2 * f) (5 / 4 * (pw (-26) * f)) es (map place vs) Cl ltac:(rewrite Le; apply K)) as Vc. rewrite Le in Vc. assert (Pw' : Rabs (val (fabs (fold_left fmul s fone)) - rprod (map val s)) <= eps8 * f ^ length t) by (rewrite <- Lst; exact Pw). clear Pw. rename Pw' into Pw. rewrite Px in Pd.
    set (w := val (fabs (fold_left fmul s fone))) in *. set (r := rprod (map val s)) in *. set (m := rvolume (map place vs)) in *. set (vol := rvolume es) in *. clearbody w r m vol.
    assert (S26 : 0 < pw (-26) <= / 67108864) by (split; [apply pw_pos|change (pw (-26)) with (/ 67108864); lra]). set (u := pw (-26)) in *. clearbody u. clearbody d.
    assert (Q1 : Rabs (r - m) <= / 100000000 * f ^ length t).
    { eapply Rle_trans; [exact Pd|]. destruct t as [|t1 [|t2 [|t3 [|]]]]; cbn [length] in K; try (clear - K; lia); cbn [length INR Nat.sub pow]; rewrite ?Rmult_1_r, ?Rmult_1_l.
      - lra.
      - replace (7 * f * d) with (7 * (f * d)) by ring. assert (f * d <= f * (/ 30000000000 * f)) by (apply Rmult_le_compat_l; lra). assert (0 < f * f) by (apply Rmult_lt_0_compat; lra). lra.
      - replace (7 * f * (7 * f) * d) with (49 * (f * f * d)) by ring. assert (0 < f * f) by (apply Rmult_lt_0_compat; lra). assert (f * f * d <= f * f * (/ 30000000000 * f)) by (apply Rmult_le_compat_l; lra). assert (0 < f * f * f) by (apply Rmult_lt_0_compat; lra). lra. }
    assert (Q2 : Rabs (m - vol) <= 15 * / 67108864 * f ^ length t).
    { eapply Rle_trans; [exact Vc|]. assert (UF : u * f <= / 67108864 * f) by (apply Rmult_le_compat_r; lra). assert (0 < u * f) by (apply Rmult_lt_0_compat; lra). destruct t as [|t1 [|t2 [|t3 [|]]]]; cbn [length] in K; try (clear - K; lia); cbn [length INR Nat.sub pow]; rewrite ?Rmult_1_r, ?Rmult_1_l.
      - lra.
      - assert (0 < f * f) by (apply Rmult_lt_0_compat; lra). assert (f * (u * f) <= f * (/ 67108864 * f)) by (apply Rmult_le_compat_l; lra). lra.
      - assert (0 < f * f) by (apply Rmult_lt_0_compat; lra). assert (f * f * (u * f) <= f * f * (/ 67108864 * f)) by (apply Rmult_le_compat_l; lra). assert (0 < f * f * f) by (apply Rmult_lt_0_compat; lra). lra. }
    destruct (tiny_pow f f_range (length t) ltac:(apply K)) as (_ & F0). unfold eps8 in Pw. unfold evol. set (F := f ^ length t) in *. clearbody F. apply abs_le in Pw, Q1, Q2. apply abs_le. lra. Qed.
End Volume.

(** ** the loop over the tuples *)
Definition stops (env : fenvironment) (lim : double) (l : list double) : bool :=
  flt (fsqrt (fdiv (fvar env l) (of_int (Z.of_nat (length l - 1))))) (fdiv (fabs (fsub lim (favg env l))) dtwo).
Lemma evaluate_spec env per boxes pos m lim : forall ts seen results b used, fevaluate_tuples env per boxes pos m lim seen results ts = Ok (b, used) ->
  exists don rest news, ts = don ++ rest /\ used = seen ++ don /\ Forall2 (fun t w => fget_volume env per boxes pos t = Ok w) don news /\ b = favg_gt env (results ++ news) lim /\
    (rest = [] \/ ((m <= length (results ++ news))%nat /\ (1 < length (results ++ news))%nat /\ stops env lim (results ++ news) = true)) /\
    (forall j, (j < length news)%nat -> (m <= length results + j)%nat -> (1 < length results + j)%nat -> stops env lim (results ++ firstn j news) = false).
Proof. induction ts as [|t ts IH]; intros seen results b used H; cbn [fevaluate_tuples] in H.
  - injection H as <- <-. exists [], [], []. rewrite !app_nil_r. repeat split; auto. intros j Hj. cbn in Hj. lia.
  - cbv zeta in H. fold (stops env lim results) in H. destruct ((m <=? length results)%nat && (1 <? length results)%nat && stops env lim results) eqn:C in H.
    + injection H as <- <-. exists [], (t :: ts), []. rewrite !app_nil_r. repeat split; auto; [|intros j Hj; cbn in Hj; lia]. right. apply andb_prop in C as (C & C3). apply andb_prop in C as (C1 & C2). apply Nat.leb_le in C1. apply Nat.ltb_lt in C2. auto.
    + destruct (fget_volume env per boxes pos t) as [w|] eqn:E; [|discriminate]. cbn [bind] in H. apply IH in H as (don & rest & news & E1 & E2 & F & Eb & St & Go). exists (t :: don), rest, (w :: news). rewrite <- !app_assoc in *. cbn [app] in *. split; [congruence|]. split; auto. split; auto. split; auto. split; auto.
      intros [|j] Hj M1 M2; cbn [length firstn] in *.
      * rewrite app_nil_r. rewrite Nat.add_0_r in M1, M2. apply Nat.leb_le in M1. apply Nat.ltb_lt in M2. rewrite M1, M2 in C. exact C.
      * specialize (Go j ltac:(lia)). rewrite app_length in Go. cbn [length] in Go. specialize (Go ltac:(lia) ltac:(lia)). rewrite <- app_assoc in Go. exact Go. Qed.

(** ** the number of tuples *)
Fixpoint all_tuples {A} (k : nat) (l : list A) : list (list A) :=
  match k with O => [[]] | S k' => flat_map (fun x => map (cons x) (all_tuples k' l)) l end.
Lemma all_tuples_length {A} k (l : list A) : length (all_tuples k l) = (length l ^ k)%nat.
Proof. induction k as [|k IH]; [reflexivity|]. cbn [all_tuples Nat.pow]. rewrite <- IH. generalize (all_tuples k l). intros m. clear. induction l as [|x l IH]; [reflexivity|]. cbn [flat_map length]. rewrite app_length, map_length, IH. reflexivity. Qed.
Lemma in_all_tuples {A} (l : list A) : forall k t, length t = k -> incl t l -> In t (all_tuples k l).
Proof. induction k as [|k IH]; intros t L I; destruct t as [|x t]; try discriminate; [left; reflexivity|]. cbn [all_tuples]. apply in_flat_map. exists x. split; [apply I; left; reflexivity|]. apply in_map. apply IH; [cbn in L; lia|]. intros y Hy. apply I. right. exact Hy. Qed.
Lemma choices_count {A} (l : list A) k ts : different_choices l k ts -> (length ts <= length l ^ k)%nat.
Proof. intros (F & D). rewrite <- all_tuples_length. apply NoDup_incl_length.
  - apply NoDup_nth_error. intros i j Hi E. destruct (nth_error ts i) as [t|] eqn:Ei; [|apply nth_error_None in Ei; lia]. exact (D i j t t Ei (eq_sym E) (Permutation_refl t)).
  - intros t It. rewrite Forall_forall in F. destruct (F t It) as (_ & I & L). apply in_all_tuples; auto. Qed.
Lemma choices_app {A} (l : list A) k ts ts' : different_choices l k (ts ++ ts') -> different_choices l k ts.
Proof. intros (F & D). split; [apply Forall_app in F; apply F|]. intros i j t t' Hi Hj P. apply (D i j t t'); auto; rewrite nth_error_app1; auto; apply nth_error_Some; congruence. Qed.
Lemma count_bound n k : (n <= 100)%nat -> (k <= 3)%nat -> (INR (n ^ k) <= 1048576).
Proof. intros N K. rewrite pow_INR. assert (X : 0 <= INR n <= 100) by (split; [apply pos_INR|]; replace 100 with (INR 100) by (rewrite INR_IZR_INZ; reflexivity); apply le_INR; exact N). destruct k as [|[|[|[|]]]]; try lia; cbn [pow]; nra. Qed.

(** ** averages *)
Lemma mean_forall2 (e : R) : forall (ws vs : list R), Forall2 (fun w v => Rabs (w - v) <= e) ws vs -> Rabs (fold_right Rplus 0 ws - fold_right Rplus 0 vs) <= INR (length ws) * e.
Proof. induction 1 as [|w v ws vs H F IH]; [cbn; apply abs_le; lra|]. cbn [fold_right length]. rewrite S_INR. apply abs_le in H, IH. apply abs_le. lra. Qed.
Definition rmean (l : list R) : R := fold_right Rplus 0 l / INR (length l).
Lemma flt_val x y : fin x -> fin y -> (flt x y = true <-> val x < val y).
Proof. intros Fx Fy. unfold flt. rewrite Bltb_correct by assumption. destruct (Rlt_bool_spec (val x) (val y)); split; intros H'; auto; [discriminate|exfalso; lra]. Qed.
Lemma forall2_firstn {A B} (P : A -> B -> Prop) : forall j l m, Forall2 P l m -> Forall2 P (firstn j l) (firstn j m).
Proof. induction j as [|j IH]; intros l m F; [constructor|]. destruct F; cbn [firstn]; constructor; auto. Qed.
Section Average.
  Variables (env : fenvironment) (F : R).
  Hypothesis F_range : pw (-300) <= F <= pw 60.
  Hypothesis Env : good_fenvironment env.
  Lemma avg_accurate ws vols : ws <> [] -> (INR (length ws) <= 1048576) -> Forall2 (fun w v => fin w /\ 0 <= val w /\ 0 <= v <= 8 * F /\ Rabs (val w - v) <= evol * F) ws vols ->
    fin (favg env ws) /\ Rabs (val (favg env ws) - rmean vols) <= / 3800000 * F.
  Proof. intros Ne N H. assert (F0 : 0 < F) by (pose proof (pw_pos (-300)); lra). assert (M : pw (-400) <= 9 * F <= pw 400).
    { split; [apply Rle_trans with (pw (-300)); [apply pw_le; lia|lra]|]. apply Rle_trans with (pw 4 * pw 60); [change (pw 4) with 16; lra|rewrite pw_mul; apply pw_le; lia]. }
    assert (Ok : Forall (okc (9 * F)) ws) by (clear - H F0; unfold evol in H; induction H as [|w v ws vs (A & B & C & D) H IH]; constructor; auto; split; auto; apply abs_le in D; apply abs_le; lra).
    assert (L : (length ws <= 2 ^ 21)%nat). { apply INR_le. rewrite pow_INR. replace (INR 2) with 2 by (cbn; lra). lra. }
    destruct Env as (_ & _ & _ & _ & Sm & _). destruct (mean_bound (9 * F) M ws (fe_sum env ws) (Sm ws) Ok Ne L) as (Fm & Em & _). cbv zeta in Fm, Em. fold (favg env ws) in Fm, Em. split; auto.
    assert (N1 : 1 <= INR (length ws)) by (destruct ws; [congruence|]; cbn [length]; rewrite S_INR; pose proof (pos_INR (length ws)); lra).
    assert (E1 : INR (length ws) * pw (-51) * (9 * F) <= / 100000000 * F). { replace (INR (length ws) * pw (-51) * (9 * F)) with (9 * (INR (length ws) * pw (-51)) * F) by ring. apply Rmult_le_compat_r; [lra|]. assert (INR (length ws) * pw (-51) <= 1048576 * pw (-51)) by (apply Rmult_le_compat_r; [left; apply pw_pos|exact N]). change (pw (-51)) with (/ 2251799813685248) in *. lra. }
    assert (H' : Forall2 (fun w v => Rabs (w - v) <= evol * F) (map val ws) vols) by (clear - H; induction H as [|w v ws vs (A & B & C & D) H IH]; cbn [map]; constructor; auto).
    pose proof (mean_forall2 (evol * F) _ _ H') as S. assert (Lv : length vols = length ws) by (clear - H; induction H; cbn; auto). unfold rmean. rewrite Lv. rewrite map_length in S. unfold rsum in Em. set (a := fold_right Rplus 0 (map val ws)) in *. set (b := fold_right Rplus 0 vols) in *. set (n := INR (length ws)) in *. assert (S' : Rabs (a - b) <= n * (evol * F)) by exact S. clear S. rename S' into S. clearbody a b n.
    assert (Q : Rabs (a / n - b / n) <= evol * F). { replace (a / n - b / n) with ((a - b) * / n) by (field; lra). rewrite Rabs_mult, (Rabs_pos_eq (/ n)) by (left; apply Rinv_0_lt_compat; lra). apply (Rmult_le_reg_r n); [lra|]. rewrite Rmult_assoc, Rinv_l, Rmult_1_r by lra. lra. }
    unfold evol in Q. apply abs_le in Em, Q. apply abs_le. lra. Qed.
  Definition rse (l : list R) : R := sqrt (fold_right Rplus 0 (map (fun x => (x - rmean l) ^ 2) l) / INR (length l) / (INR (length l) - 1)).
  Lemma rse_scatter l : rse l = scatter (map (fun v => v - rmean l) l).
  Proof. unfold rse, scatter. rewrite map_map, map_length. reflexivity. Qed.
  (** the comparison of the standard error with the distance from the limit *)
  Lemma stops_accurate lim L ws vols : (2 <= length ws)%nat -> (INR (length ws) <= 1048576) -> Forall2 (fun w v => fin w /\ 0 <= val w /\ 0 <= v <= 8 * F /\ Rabs (val w - v) <= evol * F) ws vols ->
    fin lim -> Rabs (val lim - L) <= 2 * eps8 * F -> / 16 * F <= L <= F ->
    (stops env lim ws = true -> 2 * rse vols < Rabs (L - rmean vols) + pw (-13) * L) /\ (stops env lim ws = false -> Rabs (L - rmean vols) - pw (-13) * L <= 2 * rse vols).
  Proof. intros N Cnt H Fl El BL. assert (F0 : 0 < F) by (pose proof (pw_pos (-300)); lra). assert (Ne : ws <> []) by (intros ->; cbn in N; lia). destruct (avg_accurate ws vols Ne Cnt H) as (Fa & Ea). 
    assert (Bm : 0 <= rmean vols <= 8 * F). { assert (Lv : length vols = length ws) by (clear - H; induction H; cbn; auto). unfold rmean. assert (N1 : 0 < INR (length vols)) by (apply lt_0_INR; lia). assert (S : 0 <= fold_right Rplus 0 vols <= INR (length vols) * (8 * F)). { clear - H F0. induction H as [|w v ws vols (_ & _ & B & _) H IH]; [cbn; lra|]. cbn [fold_right length]. rewrite S_INR. lra. }
      split; [unfold Rdiv; apply Rmult_le_pos; [apply S|left; apply Rinv_0_lt_compat; exact N1]|]. apply (Rmult_le_reg_r (INR (length vols))); auto. unfold Rdiv. rewrite Rmult_assoc, Rinv_l by lra. lra. }
    assert (Ba : Rabs (val (favg env ws)) <= 10 * F) by (apply abs_le in Ea; apply abs_le; lra).
    assert (H' : Forall2 (fun w v => fin w /\ Rabs (val w) <= 9 * F /\ Rabs (val w - v) <= / 4000000 * F) ws vols) by (clear - H F0; unfold evol in H; induction H as [|w v ws vols (A & B & C & D) H IH]; constructor; auto; split; auto; split; auto; apply abs_le in D; apply abs_le; lra).
    destruct (error_accurate env F F_range Env ws vols (rmean vols) N Cnt H' Fa Ea Ba) as (Fs & Es). cbv zeta in Fs, Es. rewrite <- rse_scatter in Es. unfold stops. set (se := fsqrt _) in *. set (a := favg env ws) in *. clearbody se a. clear H H' Cnt Ne N.
    destruct (F_squares F F_range) as (_ & _ & _ & T). unfold eps8 in El. assert (U : 0 < pw (-53) <= / 9000000000000000) by (split; [apply pw_pos|]; change (pw (-53)) with (/ 9007199254740992); lra).
    assert (B1 : Rabs (val lim - val a) <= 12 * F) by (apply abs_le in El, Ea; apply abs_le; lra). destruct (fsub_val lim a 70 ltac:(lia) Fl Fa) as (Fd & Vd); [eapply Rle_trans; [exact B1|]; apply Rle_trans with (pw 10 * pw 60); [change (pw 10) with 1024; lra|rewrite pw_mul; apply pw_le; lia]|].
    pose proof (rnd_rel (val lim - val a)) as R1. rewrite <- Vd in R1. assert (A1 : pw (-53) * Rabs (val lim - val a) <= / 9000000000000000 * (12 * F)) by (apply Rmult_le_compat; try apply Rabs_pos; lra). set (d := fsub lim a) in *. clearbody d.
    assert (Fb : fin (fabs d) /\ val (fabs d) = Rabs (val d)) by (unfold fabs; split; [unfold fin; rewrite is_finite_Babs; exact Fd|apply B2R_Babs]). destruct Fb as (Fb & Vb). set (x := fabs d) in *. clearbody x. assert (Bx : 0 <= val x <= 13 * F) by (rewrite Vb; split; [apply Rabs_pos|]; apply abs_le in R1, B1; apply abs_le; lra).
    destruct const_vals as (_ & (F2 & V2) & _). destruct (fdiv_val x dtwo 70 ltac:(lia) Fb F2) as (Fr & Vr); [rewrite V2; lra|rewrite V2, Rabs_pos_eq by lra; apply Rle_trans with (pw 10 * pw 60); [change (pw 10) with 1024; lra|rewrite pw_mul; apply pw_le; lia]|]. rewrite V2 in Vr.
    pose proof (rnd_rel (val x / 2)) as R2. rewrite <- Vr in R2. rewrite (Rabs_pos_eq (val x / 2)) in R2 by lra. assert (A2 : pw (-53) * (val x / 2) <= / 9000000000000000 * (13 * F)) by (apply Rmult_le_compat; lra). set (r := fdiv x dtwo) in *. clearbody r.
    assert (Dr : Rabs (Rabs (val d) - Rabs (L - rmean vols)) <= / 3000000 * F). { eapply Rle_trans; [apply Rabs_triang_inv2|]. apply abs_le in R1, El, Ea. apply abs_le. lra. }
    rewrite <- Vb in Dr. pose proof (flt_val se r Fs Fr) as Fc. assert (S13 : pw (-13) = / 8192) by reflexivity. rewrite S13. apply abs_le in R2, Dr, Es. split; intros Hb.
    - apply Fc in Hb. lra.
    - assert (~ val se < val r) by (intros X; apply Fc in X; congruence). lra. Qed.
End Average.

(** ** the test *)
Lemma fexact_some k : (1 <= k <= 3)%nat -> exists e E, fexact_value k = Some e /\ exact_value k = Some E.
Proof. intros H. destruct k as [|[|[|[|k]]]]; try lia; eexists; eexists; split; reflexivity. Qed.
Lemma evaluate_total env per boxes pos m lim : forall ts seen results, (forall t, In t ts -> exists w, fget_volume env per boxes pos t = Ok w) -> exists r, fevaluate_tuples env per boxes pos m lim seen results ts = Ok r.
Proof. induction ts as [|t ts IH]; intros seen results H; cbn [fevaluate_tuples]; [eauto|]. cbv zeta. destruct (_ && _ && _); [eauto|]. destruct (H t (or_introl eq_refl)) as (w & Ew). rewrite Ew. cbn [bind]. apply IH. intros t' It'. apply H. right. exact It'. Qed.

Section LocalDimension.
  Variables (env : fenvironment) (per : bool) (boxes : list (double * double)) (fs : double) (M : R) (positions : list (list double)) (c : graph fpoint double).
  Hypothesis Env : good_fenvironment env.
  Hypothesis Pow : accurate_pow (fe_pow env).
  Hypothesis GC : good_clustering boxes fs positions.
  Hypothesis Ms : moderate_size M boxes fs positions.
  Hypothesis Small : pw (-15) * total_size boxes <= val fs.
  Hypothesis Fs : pw (-100) <= val fs.
  Hypothesis Ic : In c (fcreate_clusters (fe_order env) (fe_edges env) per boxes fs positions).
  Let f := val fs.
  Lemma fs_range' : pw (-100) <= f <= pw 20. Proof. split; [exact Fs|apply Ms]. Qed.
  Lemma node_moderate p : In p (g_nodes c) -> moderate_pos boxes p.
  Proof. intros Ip. destruct (C69_partition (fe_order env) (fe_edges env) per boxes fs positions (proj1 Env) (proj1 (proj2 Env)) GC) as (_ & _ & Pos & _). specialize (Pos c p Ic Ip). destruct GC as (_ & _ & _ & _ & Gp). destruct Ms as (HM & _ & _ & Hp & _). rewrite Forall_forall in Gp, Hp. split; [apply Gp; exact Pos|]. eapply Forall_impl; [|apply (Hp p Pos)]. intros x Hx. eapply Rle_trans; [exact Hx|exact HM]. Qed.
  Lemma total_nonneg : 0 <= total_size boxes.
  Proof. rewrite total_rs. apply rs_nonneg. intros i Hi. destruct GC as (Gb & _). destruct Ms as (_ & _ & Hb & _). destruct (size_bounds boxes Gb Hb i Hi) as (_ & S1 & _). pose proof (pw_pos (-400)). lra. Qed.
  Lemma nbr_near p q : In q (neighbors c p) -> moderate_pos boxes q /\ within_dist per boxes p q (1001 / 1000 * f).
  Proof. intros Iq. apply in_neighbors in Iq. destruct (C69_edges (fe_order env) (fe_edges env) per boxes fs positions p q c (proj1 Env) (proj1 (proj2 Env)) GC Ic Iq) as (_ & Iq' & w & _ & _ & _ & W0 & Wd & _). split; [apply node_moderate; exact Iq'|].
    apply within_place_iff in Wd. apply within_place_iff. eapply within_incr; [|exact Wd]. unfold dist_error. change (bpow radix2 (-43)) with (pw (-43)). change (bpow radix2 (-39)) with (pw (-39)). change (B2R w) with (val w) in *. change (B2R fs) with f in W0. pose proof fs_range' as Fr. pose proof (pw_pos (-100)). pose proof total_nonneg as T0.
    assert (A : pw (-39) * total_size boxes <= pw (-24) * f) by (replace (pw (-39)) with (pw (-24) * pw (-15)) by (rewrite pw_mul; reflexivity); rewrite Rmult_assoc; apply Rmult_le_compat_l; [left; apply pw_pos|exact Small]).
    assert (B : pw (-24) * f <= / 4096 * f) by (apply Rmult_le_compat_r; [lra|]; change (/ 4096) with (pw (-12)); apply pw_le; lia). assert (C : 0 <= pw (-43) * val w <= / 4096 * f). { split; [apply Rmult_le_pos; [left; apply pw_pos|apply W0]|]. apply Rmult_le_compat; [left; apply pw_pos|apply W0| |apply W0]. change (/ 4096) with (pw (-12)); apply pw_le; lia. }
    assert (0 <= pw (-39) * total_size boxes) by (apply Rmult_le_pos; [left; apply pw_pos|exact T0]). lra. Qed.
  Lemma nbr_ok p q : In q (neighbors c p) -> moderate_pos boxes q /\ within_dist per boxes p q (3 / 2 * f).
  Proof. intros Iq. destruct (nbr_near p q Iq) as (A & B). split; auto. apply within_place_iff in B. apply within_place_iff. eapply within_incr; [|exact B]. pose proof fs_range' as Fr. pose proof (pw_pos (-100)). lra. Qed.
  Lemma lead_bound p q v : In q (neighbors c p) -> leads per boxes p q v -> rlength v <= 1002 / 1000 * f.
  Proof. intros Iq (_ & H). destruct (nbr_near p q Iq) as (_ & B). pose proof fs_range' as Fr. pose proof (pw_pos (-100)). specialize (H (1001 / 1000 * f) ltac:(lra) B). eapply Rle_trans; [exact H|]. change (bpow radix2 (-38)) with (pw (-38)).
    assert (A : pw (-38) * total_size boxes <= pw (-23) * f) by (replace (pw (-38)) with (pw (-23) * pw (-15)) by (rewrite pw_mul; reflexivity); rewrite Rmult_assoc; apply Rmult_le_compat_l; [left; apply pw_pos|exact Small]).
    assert (pw (-23) * f <= / 4096 * f) by (apply Rmult_le_compat_r; [lra|]; change (/ 4096) with (pw (-12)); apply pw_le; lia). lra. Qed.
  Lemma cluster_wf : wf_graph c.
  Proof. apply (fcluster_wf (fe_order env) (fe_edges env) per boxes fs positions (proj1 Env) (proj1 (proj2 Env)) (gc_finite boxes fs positions GC) c Ic). Qed.
  Lemma boxes_ok : Forall good_box boxes /\ (length boxes <= 64)%nat /\ boxes <> [] /\ Forall (fun b => Rabs (B2R (fst b)) <= bpow radix2 20 /\ Rabs (B2R (snd b)) <= bpow radix2 20) boxes.
  Proof. destruct GC as (Gb & Nb & Lb & _). destruct Ms as (_ & _ & Hb & _). auto. Qed.
  Lemma node_length p : In p (g_nodes c) -> length p = length boxes.
  Proof. intros Ip. destruct (node_moderate p Ip) as (Gp & _). symmetry. exact (forall2_len _ _ _ Gp). Qed.

  Section Node.
    Variables (p : fpoint).
    Hypothesis Ip : In p (g_nodes c).
    Hypothesis Few : (length (neighbors c p) <= 100)%nat.
    Hypothesis Sv : accurate_svds (fe_svd env) per boxes (neighbors c p) p.
    Lemma choice_ok k t : (1 <= k <= 3)%nat -> (k <= length boxes)%nat -> choice_of (neighbors c p) k t -> Forall (fun q => moderate_pos boxes q /\ within_dist per boxes p q (3 / 2 * f)) t /\ (1 <= length t <= 3)%nat /\
      forall vs, Forall2 (fun q v => fvector per boxes q p = Ok v) t vs -> accurate_svd_of (fe_svd env) (length boxes) vs.
    Proof. intros K Kb (N & I & L). split; [apply Forall_forall; intros q Iq; apply nbr_ok; apply I; exact Iq|]. split; [clear - K L; lia|]. intros vs Hv. assert (C : (length t = 1 \/ 2 <= length t <= 3)%nat) by (clear - K L; lia). destruct C as [C|C]; [|apply (Sv t vs); auto; rewrite L; exact Kb].
      destruct t as [|q [|]]; try discriminate C. inversion Hv as [|? v ? vs' Ev Hv' E1 E2]. subst. inversion Hv'. subst. destruct boxes_ok as (Gb & Lb & Nb & Hb). assert (Iq : In q (neighbors c p)) by (apply I; left; reflexivity). destruct (vector_accurate per boxes Gb Lb Hb p q (node_moderate p Ip) (proj1 (nbr_ok p q Iq))) as (v' & e & Ev' & Lv & Fv & _).
      rewrite Ev in Ev'. injection Ev' as <-. rewrite <- Lv. apply svd_single; auto; [|rewrite Lv; exact Lb]. intros ->. apply Nb. destruct boxes; [reflexivity|discriminate Lv]. Qed.
    Lemma volume_ok k t : (1 <= k <= 3)%nat -> (k <= length boxes)%nat -> choice_of (neighbors c p) k t -> exists w, fget_volume env per boxes p t = Ok w /\ fin w /\ 0 <= val w /\ exists vol, rconnected_volume per boxes p t vol /\ 0 <= vol <= (2 * f) ^ k /\ Rabs (val w - vol) <= evol * f ^ k.
    Proof. intros K Kb Ct. destruct (choice_ok k t K Kb Ct) as (Ft & L & S'). destruct boxes_ok as (Gb & Lb & Nb & Hb). destruct (tuple_vectors per boxes f Gb Lb Hb fs_range' Small p t (node_moderate p Ip) Ft) as (vs & _ & Evs & _). destruct (S' vs (sequence_forall2 _ _ _ Evs)) as (s & _ & Es & _).
      assert (E : exists w, fget_volume env per boxes p t = Ok w) by (unfold fget_volume; rewrite Evs; cbn [bind]; assert (Es' : fe_svd env vs = Ok s) by exact Es; rewrite Es'; cbn [bind]; eauto). destruct E as (w & Ew). exists w. split; auto.
      destruct (volume_accurate env per boxes f Gb Lb Hb fs_range' Small p t w (node_moderate p Ip) Ft L S' Ew) as (A & B & vol & C). destruct Ct as (_ & _ & Lt). rewrite Lt in C. split; auto. split; auto. exists vol. exact C. Qed.
    Definition min_evaluations (me : option nat) : nat := match me with None => length (neighbors c p) | Some m => m end.
    Definition test_of (k : nat) (me : option nat) (b : bool) : Prop := exists used vols E, exact_value k = Some E /\ different_choices (neighbors c p) k used /\ Forall2 (rconnected_volume per boxes p) used vols /\
      (b = true -> vols <> [] /\ (1 - pw (-17)) * (f ^ k * E / 2) < rmean vols) /\ (b = false -> vols = [] \/ rmean vols <= (1 + pw (-17)) * (f ^ k * E / 2)) /\
      ((forall t, choice_of (neighbors c p) k t -> exists t', In t' used /\ Permutation t t') \/ (min_evaluations me <= length used)%nat /\ (1 < length used)%nat /\ 2 * rse vols < Rabs (f ^ k * E / 2 - rmean vols) + pw (-13) * (f ^ k * E / 2)) /\
      (forall j, (min_evaluations me <= j)%nat -> (1 < j < length used)%nat -> Rabs (f ^ k * E / 2 - rmean (firstn j vols)) - pw (-13) * (f ^ k * E / 2) <= 2 * rse (firstn j vols)).
    Lemma has_dim k me : (1 <= k <= 3)%nat -> (k <= length p)%nat -> exists b used, fhas_dimension env per boxes fs c p k me = Ok (b, used) /\ test_of k me b.
    Proof. intros K Kp. assert (Kb : (k <= length boxes)%nat) by (rewrite <- (node_length p Ip); exact Kp). unfold fhas_dimension. assert (Lt : (length p <? k)%nat = false) by (apply Nat.ltb_ge; exact Kp). rewrite Lt. fold (min_evaluations me). cbv zeta. destruct (fexact_some k K) as (e & E & Ee & EE). rewrite Ee.
      set (lim := fdiv (fmul (fe_pow env fs k) e) dtwo). set (ts := fe_tuples env c p k). destruct Env as (_ & _ & _ & Tu & _). destruct (Tu c p k cluster_wf) as (Ch & All & Df). fold ts in Ch, All, Df. clearbody ts. clear Tu.
      assert (Tot : forall t, In t ts -> exists w, fget_volume env per boxes p t = Ok w) by (intros t It; rewrite Forall_forall in Ch; destruct (volume_ok k t K Kb (Ch t It)) as (w & Ew & _); exists w; exact Ew).
      destruct (evaluate_total env per boxes p (min_evaluations me) lim ts [] [] Tot) as ((b, used) & Er). exists b, used. split; [exact Er|]. apply evaluate_spec in Er as (don & rest & news & E1 & E2 & Fw & Eb & Stop & Go). cbn [app length Nat.add] in E2, Eb, Stop, Go. subst used. subst ts.
      assert (Fd : Forall (choice_of (neighbors c p) k) don) by (apply Forall_app in Ch; apply Ch).
      assert (V : exists vols, Forall2 (rconnected_volume per boxes p) don vols /\ Forall2 (fun w v => fin w /\ 0 <= val w /\ 0 <= v <= 8 * f ^ k /\ Rabs (val w - v) <= evol * f ^ k) news vols).
      { clear - Fw Fd K Kb Ip Few Sv Env Pow GC Ms Small Fs Ic. induction Fw as [|t w don news Ew Fw IH]; [exists []; split; constructor|]. destruct (IH (Forall_inv_tail Fd)) as (vols & V1 & V2). destruct (volume_ok k t K Kb (Forall_inv Fd)) as (w' & Ew' & A & B & vol & C & D & G). assert (w' = w) by (rewrite Ew in Ew'; injection Ew'; auto). subst w'. exists (vol :: vols). split; constructor; auto. split; auto. split; auto. split; auto. split; [apply D|]. eapply Rle_trans; [apply D|]. rewrite Rpow_mult_distr. apply Rmult_le_compat_r; [apply pow_le; pose proof fs_range'; pose proof (pw_pos (-100)); lra|]. destruct k as [|[|[|[|k]]]]; try (clear - K; lia); cbn [pow]; lra. }
      destruct V as (vols & V1 & V2). exists don, vols, E. split; auto. assert (Dc : different_choices (neighbors c p) k don) by (apply (choices_app _ _ don rest); split; [exact Ch|exact Df]). split; auto. split; auto.
      destruct (pow_range f fs_range' k ltac:(apply K)) as (Fk1 & Fk2). assert (Fk0 : 0 < f ^ k) by (pose proof (pw_pos (-300)); lra).
      destruct (exact_val k e E Ee EE) as (Fe & Ve & BE). assert (Ff : fin fs) by apply GC. destruct (Pow fs k ltac:(apply K) Ff fs_range') as (Fp & Vp). change (B2R (fe_pow env fs k)) with (val (fe_pow env fs k)) in Vp. change (B2R fs) with f in Vp.
      destruct (lim_accurate f fs_range' k (fe_pow env fs k) e E ltac:(apply K) Fp Vp Fe Ve BE) as (Fl & Vl). cbv zeta in Fl, Vl. fold lim in Fl, Vl. clearbody lim.
      assert (S17 : pw (-17) = / 131072) by reflexivity.
      assert (Ln : length news = length don) by (clear - Fw; induction Fw; cbn; auto). assert (Lv : length vols = length news) by (clear - V2; induction V2; cbn; auto).
      assert (Cmp : news <> [] -> (b = true -> (1 - pw (-17)) * (f ^ k * E / 2) < rmean vols) /\ (b = false -> rmean vols <= (1 + pw (-17)) * (f ^ k * E / 2))).
      { intros Ne. assert (Cnt : INR (length news) <= 1048576). { apply Rle_trans with (INR (length (neighbors c p) ^ k)); [apply le_INR; rewrite Ln; apply choices_count; exact Dc|apply count_bound; [exact Few|apply K]]. }
        destruct (avg_accurate env (f ^ k) (conj Fk1 Fk2) Env news vols Ne Cnt V2) as (Fa & Va). assert (Eb' : b = flt lim (favg env news)) by (rewrite Eb; unfold favg_gt; destruct news; [congruence|reflexivity]). pose proof (flt_val lim (favg env news) Fl Fa) as Fc. rewrite <- Eb' in Fc. set (a := val (favg env news)) in *. set (l := val lim) in *. clearbody a l. unfold eps8 in Vl. rewrite S17. apply abs_le in Va, Vl. set (F := f ^ k) in *. clearbody F. set (m := rmean vols) in *. clearbody m.
        assert (BL : / 8 * F <= F * E) by (rewrite (Rmult_comm F E); apply Rmult_le_compat_r; lra). split; intros Hb'.
        - apply Fc in Hb'. lra.
        - assert (~ l < a) by (intros H; apply Fc in H; congruence). lra. }
      split; [|split].
      - intros Hb. assert (Ne : news <> []) by (intros ->; rewrite Eb in Hb; discriminate Hb). split; [intros ->; destruct news; [congruence|discriminate Lv]|]. apply (Cmp Ne). exact Hb.
      - intros Hb. destruct vols as [|v0 vols]; [left; reflexivity|right]. apply Cmp; auto. intros ->. discriminate Lv.
      - assert (BL : / 16 * f ^ k <= f ^ k * E / 2 <= f ^ k) by (assert (/ 8 * f ^ k <= f ^ k * E) by (rewrite (Rmult_comm (f ^ k) E); apply Rmult_le_compat_r; lra); assert (f ^ k * E <= f ^ k * / 2) by (apply Rmult_le_compat_l; lra); lra).
        assert (Cnt : INR (length news) <= 1048576) by (apply Rle_trans with (INR (length (neighbors c p) ^ k)); [apply le_INR; rewrite Ln; apply choices_count; exact Dc|apply count_bound; [exact Few|apply K]]). split.
        + destruct Stop as [->|(S1 & S2 & S3)]; [left; rewrite app_nil_r in All; exact All|right]. split; [eapply Nat.le_trans; [exact S1|apply Nat.eq_le_incl; exact Ln]|]. split; [eapply Nat.lt_le_trans; [exact S2|apply Nat.eq_le_incl; exact Ln]|].
          apply (stops_accurate env (f ^ k) (conj Fk1 Fk2) Env lim (f ^ k * E / 2) news vols S2 Cnt V2 Fl Vl BL). exact S3.
        + intros j M1 (M2 & M3). assert (Lj : (j < length news)%nat) by (eapply Nat.lt_le_trans; [exact M3|apply Nat.eq_le_incl; symmetry; exact Ln]). assert (Lf : length (firstn j news) = j) by (apply firstn_length_le, Nat.lt_le_incl; exact Lj).
          apply (stops_accurate env (f ^ k) (conj Fk1 Fk2) Env lim (f ^ k * E / 2) (firstn j news) (firstn j vols)); auto.
          * rewrite Lf. exact M2.
          * apply Rle_trans with (INR (length news)); [apply le_INR; rewrite Lf; apply Nat.lt_le_incl; exact Lj|exact Cnt].
          * apply forall2_firstn. exact V2. Qed.
    Lemma dimension_from me : forall n k, (1 <= k)%nat -> (n + k <= 4)%nat -> (k - 1 <= length boxes)%nat -> exists d, fget_dimension_from env per boxes fs c p me n k = Ok d /\ (k - 1 <= d)%nat /\ (d <= n + k - 1)%nat /\ (d <= length boxes)%nat /\
      (forall j, (k <= j <= d)%nat -> test_of j me true) /\ ((d < n + k - 1)%nat -> (d < length boxes)%nat -> test_of (S d) me false).
    Proof. induction n as [|n IH]; intros k K1 K2 Kb; cbn [fget_dimension_from].
      - exists (k - 1)%nat. split; auto. split; [clear; lia|]. split; [clear; lia|]. split; auto. split; [intros j Hj; exfalso; clear - Hj K1; lia|]. intros Hd. exfalso. clear - Hd. lia.
      - destruct (le_lt_dec k (length p)) as [Kp|Kp].
        + destruct (has_dim k me ltac:(clear - K1 K2; lia) Kp) as (b & used & E & T). rewrite E. cbn [bind]. destruct b.
          * destruct (IH (S k) ltac:(clear - K1; lia) ltac:(clear - K2; lia) ltac:(rewrite <- (node_length p Ip); clear - Kp; lia)) as (d & Ed & D1 & D2 & D3 & D4 & D5). exists d. split; auto. split; [clear - D1; lia|]. split; [clear - D2; lia|]. split; auto. split.
            -- intros j Hj. destruct (Nat.eq_dec j k) as [->|N]; auto. apply D4. clear - Hj N. lia.
            -- intros Hd. apply D5. clear - Hd. lia.
          * exists (k - 1)%nat. split; auto. split; [clear; lia|]. split; [clear; lia|]. split; auto. split; [intros j Hj; exfalso; clear - Hj K1; lia|]. intros _ _. replace (S (k - 1)) with k by (clear - K1; lia). exact T.
        + unfold fhas_dimension. assert (Lt : (length p <? k)%nat = true) by (apply Nat.ltb_lt; exact Kp). rewrite Lt. cbn [bind]. exists (k - 1)%nat. split; auto. split; [clear; lia|]. split; [clear; lia|]. split; auto. split; [intros j Hj; exfalso; clear - Hj K1; lia|]. intros _ Hd. exfalso. rewrite <- (node_length p Ip) in Hd. clear - Hd Kp. lia. Qed.
  End Node.
End LocalDimension.

(** ** means of bounded numbers *)
Lemma mean_above d l : l <> [] -> Forall (fun x => d <= x) l -> d <= rmean l.
Proof. intros Ne F. assert (S : INR (length l) * d <= fold_right Rplus 0 l). { clear Ne. induction F as [|x l H F IH]; [cbn; lra|]. cbn [fold_right length]. rewrite S_INR. lra. } assert (N : 0 < INR (length l)) by (apply lt_0_INR; destruct l; [congruence|cbn; lia]). unfold rmean. apply (Rmult_le_reg_r (INR (length l))); auto. unfold Rdiv. rewrite Rmult_assoc, Rinv_l by lra. lra. Qed.
Lemma mean_below d l : l <> [] -> Forall (fun x => x <= d) l -> rmean l <= d.
Proof. intros Ne F. assert (S : fold_right Rplus 0 l <= INR (length l) * d). { clear Ne. induction F as [|x l H F IH]; [cbn; lra|]. cbn [fold_right length]. rewrite S_INR. lra. } assert (N : 0 < INR (length l)) by (apply lt_0_INR; destruct l; [congruence|cbn; lia]). unfold rmean. apply (Rmult_le_reg_r (INR (length l))); auto. unfold Rdiv. rewrite Rmult_assoc, Rinv_l by lra. lra. Qed.

(** ** vectors near a line or plane *)
Lemma radd_comm : forall a b, radd a b = radd b a.
Proof. induction a as [|x a IH]; intros [|y b]; cbn [radd]; auto. rewrite IH. f_equal. ring. Qed.
Lemma radd_cut : forall a b, length a = length b -> radd (radd a b) (map (Rmult (-1)) a) = b.
Proof. induction a as [|x a IH]; intros [|y b] L; cbn [radd map] in *; try discriminate; auto. rewrite IH by (injection L; auto). f_equal. ring. Qed.
Lemma radd_assoc : forall a b c, radd (radd a b) c = radd a (radd b c).
Proof. induction a as [|x a IH]; intros [|y b] [|z c]; cbn [radd]; auto. rewrite IH. f_equal. ring. Qed.
Lemma part_bound e x : length e = length x -> rlength x <= rlength (radd e x) + rlength e.
Proof. intros L. pose proof (rlen_add (radd e x) (map (Rmult (-1)) e) ltac:(rewrite radd_length, map_length; auto)) as H. rewrite radd_cut, rlen_scale in H by exact L. replace (Rabs (-1)) with 1 in H by (rewrite Rabs_left; lra). lra. Qed.
Lemma parallel_area a b u : rvolume [map (Rmult a) u; map (Rmult b) u] = 0.
Proof. unfold rvolume. cbn [gramdet]. unfold gram2, d2. rewrite !rdot_scale, !rdot_scale_r. replace (a * (a * rdot u u) * (b * (b * rdot u u)) - a * (b * rdot u u) * (b * (a * rdot u u))) with 0 by ring. apply sqrt_0. Qed.
Lemma coplanar_volume n a1 b1 a2 b2 a3 b3 u w : length u = n -> length w = n -> let comb a b := radd (map (Rmult b) w) (map (Rmult a) u) in rvolume [comb a1 b1; comb a2 b2; comb a3 b3] = 0.
Proof. intros Lu Lw comb. unfold rvolume. cbn [gramdet]. unfold gram3, d3, comb. assert (E : forall x y, length (map (Rmult x) w) = length (map (Rmult y) u)) by (intros x y; rewrite !map_length; congruence).
  rewrite !rdot_add by apply E. rewrite !rdot_add_r by apply E. rewrite !rdot_scale, !rdot_scale_r. rewrite (rdot_comm w u). set (A := rdot u u). set (B := rdot u w). set (C := rdot w w). clearbody A B C. match goal with |- sqrt ?x = 0 => replace x with 0 by ring end. apply sqrt_0. Qed.
Lemma thin_area n u h L v w : length u = n -> length v = n -> length w = n -> 0 <= h -> 0 <= L -> near_span [u] h v -> near_span [u] h w -> rlength v <= L -> rlength w <= L -> rvolume [v; w] <= h * L + h * (L + h).
Proof. intros Lu Lv Lw h0 L0 (cs & e & Lc & Le & Ev & He) (cs' & e' & Lc' & Le' & Ew & He') Bv Bw. destruct cs as [|a [|]]; try discriminate. destruct cs' as [|b [|]]; try discriminate. cbn [rcombined] in Ev, Ew.
  assert (Lau : length (map (Rmult a) u) = n) by (rewrite map_length; exact Lu). assert (Lbu : length (map (Rmult b) u) = n) by (rewrite map_length; exact Lu). rewrite Lv in Le. rewrite Lw in Le'.
  pose proof (volume2_first n (map (Rmult a) u) v e w Lau Lv Lw Le ltac:(rewrite radd_comm; exact Ev)) as V1. rewrite (rotate2 (map (Rmult a) u) w) in V1. pose proof (volume2_first n (map (Rmult b) u) w e' (map (Rmult a) u) Lbu Lw Lau Le' ltac:(rewrite radd_comm; exact Ew)) as V2. rewrite parallel_area in V2.
  pose proof (part_bound e (map (Rmult a) u) ltac:(congruence)) as P. rewrite <- Ev in P. pose proof (rlen_pos e). pose proof (rlen_pos e'). pose proof (rlen_pos w). pose proof (rlen_pos (map (Rmult a) u)).
  assert (rlength e * rlength w <= h * L) by (apply Rmult_le_compat; lra). assert (rlength e' * rlength (map (Rmult a) u) <= h * (L + h)) by (apply Rmult_le_compat; lra). lra. Qed.
Lemma near_plane n u w h v L : length u = n -> length w = n -> length v = n -> near_span [u; w] h v -> rlength v <= L -> exists a b e, let comb := radd (map (Rmult b) w) (map (Rmult a) u) in v = radd comb e /\ length e = n /\ length comb = n /\ rlength e <= h /\ rlength comb <= L + h.
Proof. intros Lu Lw Lv (cs & e & Lc & Le & Ev & He) Bv. destruct cs as [|a [|b [|]]]; try discriminate. cbn [rcombined] in Ev. exists a, b, e. cbv zeta. rewrite radd_assoc in Ev. rewrite Lv in Le. assert (E : length (radd (map (Rmult b) w) (map (Rmult a) u)) = n) by (rewrite radd_length; rewrite !map_length; congruence).
  split; [rewrite radd_comm; exact Ev|]. split; auto. split; auto. split; auto. pose proof (part_bound e _ (eq_trans Le (eq_sym E))) as P. rewrite <- Ev in P. lra. Qed.
Lemma flat_volume n u w h L v1 v2 v3 : length u = n -> length w = n -> length v1 = n -> length v2 = n -> length v3 = n -> 0 <= h -> 0 <= L -> near_span [u; w] h v1 -> near_span [u; w] h v2 -> near_span [u; w] h v3 ->
  rlength v1 <= L -> rlength v2 <= L -> rlength v3 <= L -> rvolume [v1; v2; v3] <= 3 * (h * ((L + h) * (L + h))).
Proof. intros Lu Lw L1 L2 L3 h0 L0 N1 N2 N3 B1 B2 B3. destruct (near_plane n u w h v1 L Lu Lw L1 N1 B1) as (a1 & b1 & e1 & E1 & Le1 & Lc1 & H1 & C1). destruct (near_plane n u w h v2 L Lu Lw L2 N2 B2) as (a2 & b2 & e2 & E2 & Le2 & Lc2 & H2 & C2). destruct (near_plane n u w h v3 L Lu Lw L3 N3 B3) as (a3 & b3 & e3 & E3 & Le3 & Lc3 & H3 & C3).
  pose proof (coplanar_volume n a3 b3 a1 b1 a2 b2 u w Lu Lw) as Z. cbv zeta in Z. set (c1 := radd (map (Rmult b1) w) (map (Rmult a1) u)) in *. set (c2 := radd (map (Rmult b2) w) (map (Rmult a2) u)) in *. set (c3 := radd (map (Rmult b3) w) (map (Rmult a3) u)) in *. clearbody c1 c2 c3.
  pose proof (volume3_first n c1 v1 e1 v2 v3 Lc1 L1 L2 L3 Le1 E1) as V1. rewrite (rotate3 c1 v2 v3) in V1. pose proof (volume3_first n c2 v2 e2 v3 c1 Lc2 L2 L3 Lc1 Le2 E2) as V2. rewrite (rotate3 c2 v3 c1) in V2. pose proof (volume3_first n c3 v3 e3 c1 c2 Lc3 L3 Lc1 Lc2 Le3 E3) as V3. rewrite Z in V3.
  assert (K : forall x y z, length y = n -> length z = n -> 0 <= x <= h -> rlength y <= L + h -> rlength z <= L + h -> x * rvolume [y; z] <= h * ((L + h) * (L + h))).
  { intros x y z Ly Lz X Y Z'. pose proof (volume2_bound n y z Ly Lz) as (V0 & V). pose proof (rlen_pos y). pose proof (rlen_pos z). apply Rmult_le_compat; try lra. eapply Rle_trans; [exact V|]. apply Rmult_le_compat; lra. }
  pose proof (K (rlength e1) v2 v3 L2 L3 (conj (rlen_pos _) H1) ltac:(lra) ltac:(lra)). pose proof (K (rlength e2) v3 c1 L3 Lc1 (conj (rlen_pos _) H2) ltac:(lra) ltac:(lra)). pose proof (K (rlength e3) c1 c2 Lc1 Lc2 (conj (rlen_pos _) H3) ltac:(lra) ltac:(lra)). lra. Qed.

(** ** all positions of a cluster have the same local dimension *)
Lemma counted_as d n : (1 <= n <= 2 ^ 20)%nat -> fcheck_count [(d, n)] = Ok (true, d).
Proof. intros (H1 & H2). unfold fcheck_count. cbn [most_common map snd list_sum fold_right]. rewrite Nat.add_0_r. assert (Z1 : (1 <= Z.of_nat n)%Z) by (apply (Nat2Z.inj_le 1); exact H1).
  assert (Z2 : (Z.of_nat n <= 2 ^ 20)%Z) by (replace (2 ^ 20)%Z with (Z.of_nat (2 ^ 20)) by (rewrite Nat2Z.inj_pow; reflexivity); apply Nat2Z.inj_le; exact H2). assert (Z3 : (2 ^ 20 <= 2 ^ 50)%Z) by (apply Z.pow_le_mono_r; lia). clear H1 H2.
  rewrite C54_two_thirds by lia. replace (2 * Z.of_nat n <=? 3 * Z.of_nat n)%Z with true; [reflexivity|]. symmetry. apply Z.leb_le. lia. Qed.
Lemma count_same d local min_pos : forall ps i n, (1 <= min_pos)%nat -> (forall p, In p ps -> local p = Ok d) -> (n + length ps <= 2 ^ 20)%nat -> (1 <= n + length ps)%nat -> (n = i)%nat ->
  fcount_dimensions local min_pos i (if (n =? 0)%nat then [] else [(d, n)]) ps = Ok (Some d).
Proof. induction ps as [|p ps IH]; intros i n Hm H L1 L2 E; subst i.
  - cbn [length] in *. rewrite Nat.add_0_r in *. cbn [fcount_dimensions]. destruct n as [|n]; [exfalso; apply (Nat.nle_succ_0 0); exact L2|]. change (S n =? 0)%nat with false. cbn [fcount_dimensions]. rewrite counted_as by (split; auto; apply le_n_S, Nat.le_0_l). reflexivity.
  - cbn [fcount_dimensions]. assert (Nx : fcount_dimensions local min_pos (S n) (counter_add d (if (n =? 0)%nat then [] else [(d, n)])) ps = Ok (Some d)).
    { replace (counter_add d (if (n =? 0)%nat then [] else [(d, n)])) with (if (S n =? 0)%nat then [] else [(d, S n)]) by (destruct n; cbn; rewrite ?Nat.eqb_refl; reflexivity). apply IH; auto; [intros q Hq; apply H; right; exact Hq| |]; cbn [length] in *; rewrite Nat.add_succ_r in *; cbn [Nat.add]; auto. }
    destruct (min_pos <=? n)%nat eqn:C.
    + apply Nat.leb_le in C. assert (N1 : (1 <= n)%nat) by exact (Nat.le_trans _ _ _ Hm C). destruct n as [|n]; [exfalso; apply (Nat.nle_succ_0 0); exact N1|]. change (S n =? 0)%nat with false. cbn beta iota. rewrite counted_as; [reflexivity|]. split; auto. eapply Nat.le_trans; [|exact L1]. apply Nat.le_add_r.
    + cbn [bind]. rewrite (H p (or_introl eq_refl)). cbn [bind]. exact Nx. Qed.
