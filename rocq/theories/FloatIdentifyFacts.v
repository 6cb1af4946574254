(** Clusters around isolated centres in double precision. *)
From Coq Require Import ZArith Reals Psatz List Permutation.
From Flocq Require Import Core BinarySingleNaN Relative.
From Verif Require Import Base BaseFacts CoordSys CoordSysR Graph SpecGraph GraphFacts SpecCluster CellList Dimension Float FloatFacts PropFloat FloatVector FloatVectorFacts FloatMin FloatCell SpecFloatCell FloatCellNum FloatDistNum FloatStepNum FloatStepFacts PropFloatVector
  FloatController FloatCluster SpecFloatCluster FloatClusterFacts PropFloatCluster FloatIdentify SpecFloatIdentify FloatSumFacts FloatAverage.
From Coq Require Import Lra.
Import ListNotations.
Open Scope list_scope.
Open Scope R_scope.

(** ** distances of real positions *)
Lemma rs_rdot n f : rs n (fun i => f i ^ 2) = rdot (map f (seq 0 n)) (map f (seq 0 n)).
Proof. unfold rs, rsum. induction (seq 0 n) as [|i l IH]; [reflexivity|]. cbn [map fold_right rdot]. rewrite IH. ring. Qed.
Lemma rs_minkowski n f g : sqrt (rs n (fun i => (f i + g i) ^ 2)) <= sqrt (rs n (fun i => f i ^ 2)) + sqrt (rs n (fun i => g i ^ 2)).
Proof. rewrite (rs_rdot n f), (rs_rdot n g), (rs_rdot n (fun i => f i + g i)). assert (E : map (fun i => f i + g i) (seq 0 n) = radd (map f (seq 0 n)) (map g (seq 0 n))) by (induction (seq 0 n) as [|i l IH]; [reflexivity|]; cbn [map radd]; rewrite IH; reflexivity).
  rewrite E. apply minkowski. rewrite !map_length. reflexivity. Qed.
Lemma rs_sq_bound n f d : 0 <= d -> rs n (fun i => f i ^ 2) <= d ^ 2 <-> sqrt (rs n (fun i => f i ^ 2)) <= d.
Proof. intros D. assert (P : 0 <= rs n (fun i => f i ^ 2)) by (apply rs_nonneg; intros; apply pow2_ge_0). split; intros H.
  - rewrite <- (sqrt_pow2 d D). apply sqrt_le_1_alt. exact H.
  - rewrite <- (pow2_sqrt _ P). apply pow_incr. split; [apply sqrt_pos|exact H]. Qed.
Lemma rs_add n f g d e : 0 <= d -> 0 <= e -> rs n (fun i => f i ^ 2) <= d ^ 2 -> rs n (fun i => g i ^ 2) <= e ^ 2 -> rs n (fun i => (f i + g i) ^ 2) <= (d + e) ^ 2.
Proof. intros D E Hf Hg. apply rs_sq_bound; [lra|]. apply rs_sq_bound in Hf, Hg; auto. eapply Rle_trans; [apply rs_minkowski|]. lra. Qed.

Section Within.
  Variables (per : bool) (boxes : list (double * double)).
  Lemma within_rsym p q d : length p = length boxes -> length q = length boxes -> within per boxes p q d -> within per boxes q p d.
  Proof. intros Lp Lq H. apply within_off in H as (k & Z & H); auto. apply within_off; auto. exists (fun i => (- k i)%Z). split; [intros E i; rewrite (Z E); reflexivity|]. eapply Rle_trans; [|exact H]. right. apply rs_ext. intros i _. unfold off. rewrite opp_IZR. ring. Qed.
  Lemma within_triangle p q w d e : length p = length boxes -> length q = length boxes -> length w = length boxes -> 0 <= d -> 0 <= e -> within per boxes p q d -> within per boxes q w e -> within per boxes p w (d + e).
  Proof. intros Lp Lq Lw D E H1 H2. apply within_off in H1 as (k1 & Z1 & H1); auto. apply within_off in H2 as (k2 & Z2 & H2); auto. apply within_off; auto. exists (fun i => (k1 i + k2 i)%Z). split; [intros Q i; rewrite (Z1 Q), (Z2 Q); reflexivity|].
    eapply Rle_trans; [|apply (rs_add _ _ _ d e D E H1 H2)]. right. apply rs_ext. intros i _. unfold off. rewrite plus_IZR. ring. Qed.
  Lemma within_incr p q d e : 0 <= d <= e -> within per boxes p q d -> within per boxes p q e.
  Proof. intros D (ks & L & Z & H). exists ks. split; auto. split; auto. eapply Rle_trans; [exact H|]. apply pow_incr. exact D. Qed.
  Lemma image_place : forall bs p q ks, image_dist_sq bs p q ks = image_sq bs (place p) (place q) ks.
  Proof. induction bs as [|b bs IH]; intros [|x p] [|y q] [|k ks]; cbn [image_dist_sq image_sq place map]; auto. rewrite IH. reflexivity. Qed.
  Lemma within_place_iff p q d : within_dist per boxes p q d <-> within per boxes (place p) (place q) d.
  Proof. unfold within_dist, within. split; intros (ks & L & Z & H); exists ks; rewrite image_place in *; auto. Qed.
  Lemma same_place_eq p q : same_place p q -> place p = place q.
  Proof. unfold place. induction 1 as [|x y p q E H IH]; [reflexivity|]. cbn [map]. congruence. Qed.
End Within.

(** ** the local dimension of a position close to all others *)
Lemma rlength_rs n (v : list double) : length v = n -> rlength (map val v) = sqrt (rs n (fun i => val (nth i v (B754_zero false)) ^ 2)).
Proof. intros <-. unfold rlength. f_equal. induction v as [|x v IH]; [reflexivity|]. cbn [map fold_right length]. rewrite rs_succ, IH. reflexivity. Qed.
Lemma rlength_nonneg v : 0 <= rlength v. Proof. apply sqrt_pos. Qed.
Lemma rsum_le_const {A} (l : list A) f B : (forall x, In x l -> f x <= B) -> rsum (map f l) <= INR (length l) * B.
Proof. unfold rsum. induction l as [|x l IH]; intros H; [cbn; lra|]. cbn [map fold_right length]. rewrite S_INR. pose proof (H x (or_introl eq_refl)). specialize (IH (fun y Hy => H y (or_intror Hy))). lra. Qed.

Section Local.
  Variables (env : fenvironment) (per : bool) (boxes : list (double * double)) (fs : double) (M r : R) (c : list R) (ps : list (list double)).
  Hypothesis Gb : Forall good_box boxes.
  Hypothesis Nb : boxes <> [].
  Hypothesis Lb : (length boxes <= 64)%nat.
  Hypothesis Env : good_fenvironment env.
  Hypothesis HM : M <= pw 20.
  Hypothesis Hf : fin fs /\ val fs <= pw 20.
  Hypothesis Hb : Forall (fun b => Rabs (val (fst b)) <= pw 20 /\ Rabs (val (snd b)) <= pw 20) boxes.
  Hypothesis Hp : Forall (Forall (fun x => Rabs (val x) <= M)) ps.
  Hypothesis Hn : (length ps <= 2 ^ 20)%nat.
  Hypothesis Gp : Forall (good_position boxes) ps.
  Hypothesis Lc : length c = length boxes.
  Hypothesis R0 : 0 <= r.
  Hypothesis R8 : 8 * r + slack boxes fs <= val fs.
  Hypothesis Bx : per = true -> Forall (fun b => val fs < 2 * fbox_size b) boxes.
  Hypothesis Near : forall p, In p ps -> within per boxes (place p) c r.
  Notation z0 := (B754_zero false).
  Let T := total_size boxes.
  Lemma sz_pos i : (i < length boxes)%nat -> pw (-400) <= sz boxes i <= pw 21.
  Proof. intros Hi. unfold sz. pose proof Gb as G. pose proof Hb as H. rewrite Forall_forall in G, H. specialize (G _ (nth_In boxes nob Hi)). specialize (H _ (nth_In boxes nob Hi)). destruct H as (B1 & B2). split; [apply G|]. destruct G as (F1 & F2 & L & _). apply (size_small _ _ F1 F2); auto. Qed.
  Lemma T_range : pw (-400) <= T <= 64 * pw 21.
  Proof. unfold T. rewrite total_rs. assert (L0 : (0 < length boxes)%nat) by (clear - Nb; destruct boxes; [congruence|cbn; lia]). split.
    - eapply Rle_trans; [apply (sz_pos 0 L0)|]. apply (rs_bound (length boxes) (sz boxes) 0 L0). intros j Hj. pose proof (sz_pos j Hj). pose proof (pw_pos (-400)). lra.
    - eapply Rle_trans; [apply (rs_le _ _ (fun _ => pw 21)); intros i Hi; apply (sz_pos i Hi)|]. rewrite rs_const. apply Rmult_le_compat_r; [left; apply pw_pos|]. replace 64 with (INR 64) by (cbn; lra). apply le_INR. exact Lb. Qed.
  Lemma fs_range : pw (-26) * T <= val fs <= pw 20.
  Proof. split; [|apply Hf]. pose proof R8 as H. unfold slack in H. fold T in H. pose proof T_range as (T1 & _). pose proof (pw_pos (-400)). assert (E : pw (-25) = 2 * pw (-26)) by (change 2 with (pw 1); rewrite pw_mul; reflexivity). rewrite E in H. assert (S : 0 < pw (-26) <= / 4) by (split; [apply pw_pos|change (/ 4) with (pw (-2)); apply pw_le; clear; lia]). nra. Qed.
  Lemma r_half : per = true -> forall i, (i < length boxes)%nat -> 2 * r <= sz boxes i / 2 - pw (-32) * sz boxes i.
  Proof. intros E i Hi. pose proof (Bx E) as B. rewrite Forall_forall in B. specialize (B _ (nth_In boxes nob Hi)). change (fbox_size (nth i boxes nob)) with (sz boxes i) in B. pose proof R8 as H. unfold slack in H. fold T in H.
    assert (S : sz boxes i <= T) by (unfold T; rewrite total_rs; apply (rs_bound (length boxes) (sz boxes) i Hi); intros j Hj; pose proof (sz_pos j Hj); pose proof (pw_pos (-400)); lra).
    assert (E1 : pw (-25) = 128 * pw (-32)) by (change 128 with (pw 7); rewrite pw_mul; reflexivity). rewrite E1 in H. pose proof (pw_pos (-32)) as P. destruct fs_range as (F1 & _). pose proof T_range as (T1 & _). pose proof (pw_pos (-400)). pose proof (pw_pos (-26)).
    assert (0 <= val fs) by nra. assert (X : pw (-32) * sz boxes i <= pw (-32) * T) by (apply Rmult_le_compat_l; lra). assert (0 <= pw (-32) * val fs) by nra. assert (0 <= pw (-32) * T) by nra. lra. Qed.

  (** the vector between two of the positions *)
  Lemma vector_short p q : In p ps -> In q ps -> exists v, fvector per boxes q p = Ok v /\ length v = length boxes /\ Forall (fun x => fin x /\ Rabs (val x) <= pw 400) v /\ rlength (map val v) <= 2 * r + 5 / 4 * (pw (-41) * T).
  Proof. intros Ip Iq. destruct (get_offs per boxes r c ps Gp Lc Near) as (offs & Ef & Ho).
    assert (Kp : exists kp, In (p, kp) offs) by (clear - Ef Ip; rewrite <- Ef in Ip; apply in_map_iff in Ip as ((p' & k) & E & I); cbn in E; subst p'; eauto). assert (Kq : exists kq, In (q, kq) offs) by (clear - Ef Iq; rewrite <- Ef in Iq; apply in_map_iff in Iq as ((p' & k) & E & I); cbn in E; subst p'; eauto).
    destruct Kp as (kp & Ikp), Kq as (kq & Ikq). pose proof (len_p boxes ps Gp p Ip) as Lp. pose proof (len_p boxes ps Gp q Iq) as Lq.
    assert (K : exists v, fvector per boxes q p = Ok v /\ length v = length boxes /\ forall i, (i < length boxes)%nat -> fin (nth i v z0) /\ Rabs (val (nth i v z0)) <= pw 400 /\ Rabs (val (nth i v z0) - (off boxes (place p) c kp i - off boxes (place q) c kq i)) <= 5 / 4 * (pw (-41) * sz boxes i)).
    { unfold fvector. assert (Cs : per = true \/ per = false) by (clear; destruct per; auto). destruct Cs as [E|E].
      - pose proof (no_wrap per boxes M r c ps Gb Lb Hp Hn Gp Lc R0 r_half offs Ef Ho) as NW. exists (per_coordinate fconnect boxes q p). split; [rewrite E; apply assertion_holds; auto; apply (moderate_pair boxes M ps); auto|]. split; [apply per_coordinate_length; auto|].
        intros i Hi. rewrite (nth_per_coordinate fconnect z0 boxes q p i) by auto. destruct (NW i Hi q p kq kp E Ikq Ikp) as (F & B & A). cbv zeta in *. split; auto. split; [eapply Rle_trans; [exact B|]; eapply Rle_trans; [apply (sz_pos i Hi)|]; apply pw_le; lia|exact A].
      - exists (map2 fsub p q). split; [rewrite E; reflexivity|]. split; [rewrite map2_length by congruence; exact Lp|]. intros i Hi. rewrite (nth_map2 fsub p q i z0 z0 z0) by (rewrite ?Lp; auto; congruence).
        destruct (fin_nth boxes M ps Hp Gp p i Ip Hi) as (Fp & _ & Gcp). destruct (fin_nth boxes M ps Hp Gp q i Iq Hi) as (Fq & _ & Gcq). pose proof Gb as G. rewrite Forall_forall in G. specialize (G _ (nth_In boxes nob Hi)). destruct Gcp as (_ & Bp), Gcq as (_ & Bq).
        change (fbox_size (nth i boxes nob)) with (sz boxes i) in Bp, Bq. assert (B : Rabs (val (nth i p z0) - val (nth i q z0)) <= pw 11 * sz boxes i) by (change 11%Z with (10 + 1)%Z; rewrite pow_succ; rewrite abs_le in *; lra).
        destruct (diff_val (nth i boxes nob) G _ _ Fp Fq B) as (Fd & Ed). change (val (fsize (fst (nth i boxes nob)) (snd (nth i boxes nob)))) with (sz boxes i) in Ed. pose proof (sz_pos i Hi) as Sz. pose proof (pw_pos (-400)) as P4. pose proof (pw_pos (-41)) as P41.
        split; [exact Fd|]. split.
        + apply Rle_trans with (pw 12 * sz boxes i); [|apply Rle_trans with (pw 12 * pw 21); [apply Rmult_le_compat_l; [left; apply pw_pos|apply Sz]|rewrite pw_mul; apply pw_le; lia]]. change 12%Z with (11 + 1)%Z. rewrite pow_succ. assert (pw (-41) <= pw 11) by (apply pw_le; lia). assert (pw (-41) * sz boxes i <= pw 11 * sz boxes i) by (apply Rmult_le_compat_r; lra). rewrite abs_le in *. lra.
        + destruct (Ho _ Ikp) as (Zp & _). destruct (Ho _ Ikq) as (Zq & _). unfold off. cbn [snd] in Zp, Zq. rewrite !nth_place, (Zp E i), (Zq E i).
          match goal with |- Rabs ?x <= _ => replace x with (val (fsub (nth i p z0) (nth i q z0)) - (val (nth i p z0) - val (nth i q z0))) by ring end. assert (0 < pw (-41) * sz boxes i) by (apply Rmult_lt_0_compat; lra). eapply Rle_trans; [exact Ed|]. lra. }
    destruct K as (v & Ev & Lv & V). exists v. split; auto. split; auto. split; [apply forall_nth; intros i Hi; rewrite Lv in Hi; split; apply (V i Hi)|].
    rewrite (rlength_rs (length boxes) v Lv). assert (T0 : 0 < T) by (pose proof T_range; pose proof (pw_pos (-400)); lra). assert (TT : 0 < pw (-41) * T) by (apply Rmult_lt_0_compat; [apply pw_pos|exact T0]).
    apply rs_sq_bound; [lra|]. eapply Rle_trans; [apply (rs_triangle _ _ (fun i => off boxes (place p) c kp i - off boxes (place q) c kq i) (fun i => 5 / 4 * (pw (-41) * sz boxes i))); intros i Hi; apply (V i Hi)|].
    rewrite rs_scal, rs_scal, <- total_rs. fold T. set (w := 5 / 4 * (pw (-41) * T)) in *. apply pow_incr. split; [pose proof (sqrt_pos (rs (length boxes) (fun i => (off boxes (place p) c kp i - off boxes (place q) c kq i) ^ 2))); unfold w; lra|]. apply Rplus_le_compat_r.
    apply rs_sq_bound; [lra|]. replace (2 * r) with (r + r) by ring. eapply Rle_trans; [|apply (rs_add (length boxes) (fun i => off boxes (place p) c kp i) (fun i => - off boxes (place q) c kq i) r r R0 R0)].
    - right. apply rs_ext. intros i _. ring.
    - apply (Ho _ Ikp).
    - eapply Rle_trans; [|apply (Ho _ Ikq)]. right. apply rs_ext. intros i _. cbn [fst snd]. ring. Qed.

  Let Bv := (1 + pw (-40)) * (2 * r + 5 / 4 * (pw (-41) * T)) + pw (-500).
  Let lim := fdiv (fmul (fe_pow env fs 1) dhalf) dtwo.
  Lemma lim_val : fin lim /\ val fs / 4 - pw (-50) * val fs <= val lim.
  Proof. unfold lim. destruct Env as (_ & _ & _ & _ & _ & _ & _ & Pw). rewrite Pw. destruct const_vals as (_ & (F2 & V2) & _ & (Fh & Vh) & _). destruct Hf as (Ff & Uf). destruct fs_range as (L1 & _). destruct T_range as (T1 & _).
    assert (Lf : pw (-426) <= val fs) by (eapply Rle_trans; [|exact L1]; change (-426)%Z with (-26 + -400)%Z; rewrite <- pw_mul; apply Rmult_le_compat_l; [left; apply pw_pos|exact T1]). pose proof (pw_pos (-426)) as P. pose proof (pw_pos 20) as P20.
    destruct (fmul_val fs dhalf 20 ltac:(lia) Ff Fh) as (Fm & Vm); [rewrite Vh, Rabs_pos_eq; lra|]. rewrite Vh in Vm. pose proof (rnd_rel (val fs * / 2)) as E1. rewrite <- Vm in E1. rewrite (Rabs_pos_eq (val fs * / 2)) in E1 by lra.
    assert (Tn : pw (-1075) <= pw (-53) * val fs) by (apply Rle_trans with (pw (-53) * pw (-426)); [rewrite pw_mul; apply pw_le; lia|apply Rmult_le_compat_l; [left; apply pw_pos|exact Lf]]).
    set (m := fmul fs dhalf) in *. assert (U53 : 0 < pw (-53) <= / 1024) by (split; [apply pw_pos|change (/ 1024) with (pw (-10)); apply pw_le; lia]). set (u := pw (-53)) in *. assert (UF : u * val fs <= / 1024 * val fs) by (apply Rmult_le_compat_r; lra).
    assert (Bm : 0 <= val m <= val fs) by (rewrite abs_le in E1; lra).
    destruct (fdiv_val m dtwo 20 ltac:(lia) Fm F2) as (Fl & Vl); [rewrite V2; lra|rewrite V2, Rabs_pos_eq; lra|]. rewrite V2 in Vl. pose proof (rnd_rel (val m / 2)) as E2. rewrite <- Vl in E2. rewrite (Rabs_pos_eq (val m / 2)) in E2 by lra. fold u in E2.
    assert (UM : u * (val m / 2) <= u * val fs) by (apply Rmult_le_compat_l; lra). assert (E50 : pw (-50) = 8 * u) by (unfold u; change 8 with (pw 3); rewrite pw_mul; reflexivity). rewrite E50. split; [exact Fl|]. rewrite abs_le in *. lra. Qed.
  Lemma numbers : 0 <= Bv /\ Bv <= val fs + T /\ pw (-400) <= val fs + T <= pw 400 /\ Bv + pw (-31) * (val fs + T) <= val fs / 4 - pw (-50) * val fs.
  Proof. destruct fs_range as (F1 & F2). destruct T_range as (T1 & T2). pose proof R8 as H. unfold slack in H. fold T in H. pose proof (pw_pos (-400)) as P4. set (g := pw (-31)). assert (G0 : 0 < g <= / 1024) by (split; [apply pw_pos|change (/ 1024) with (pw (-10)); apply pw_le; lia]).
    assert (E25 : pw (-25) = 64 * g) by (unfold g; change 64 with (pw 6); rewrite pw_mul; reflexivity). assert (E40 : pw (-40) = g / 512) by (unfold g, Rdiv; change (/ 512) with (pw (-9)); rewrite pw_mul; reflexivity). assert (E41 : pw (-41) = g / 1024) by (unfold g, Rdiv; change (/ 1024) with (pw (-10)); rewrite pw_mul; reflexivity).
    assert (E50 : pw (-50) <= g / 512) by (rewrite <- E40; apply pw_le; lia). assert (E500 : pw (-500) <= g / 512 * T). { rewrite <- E40. apply Rle_trans with (pw (-40) * pw (-400)); [rewrite pw_mul; apply pw_le; lia|apply Rmult_le_compat_l; [left; apply pw_pos|exact T1]]. } pose proof (pw_pos (-500)) as P5. pose proof (pw_pos (-50)) as P50.
    rewrite E25 in H. unfold Bv. rewrite E40, E41. assert (f0 : 0 <= val fs) by (pose proof (pw_pos (-26)); nra). set (x := val fs) in *.
    assert (GX : 0 <= g * x <= / 1024 * x) by (split; [apply Rmult_le_pos; lra|apply Rmult_le_compat_r; lra]). assert (GT : 0 <= g * T <= / 1024 * T) by (split; [apply Rmult_le_pos; lra|apply Rmult_le_compat_r; lra]).
    assert (H' : 8 * r + 64 * (g * x) + 64 * (g * T) <= x) by lra. assert (GR : 0 <= g * r <= g * x / 8) by (split; [apply Rmult_le_pos; lra|unfold Rdiv; rewrite Rmult_assoc; apply Rmult_le_compat_l; lra]).
    assert (GG : 0 <= g * (g * T) <= / 1024 * (g * T)) by (split; [apply Rmult_le_pos; lra|apply Rmult_le_compat_r; lra]).
    assert (X50 : pw (-50) * x <= g / 512 * x) by (apply Rmult_le_compat_r; lra).
    replace ((1 + g / 512) * (2 * r + 5 / 4 * (g / 1024 * T))) with (2 * r + (g * r) / 256 + 5 / 4096 * (g * T) + 5 / 4096 / 512 * (g * (g * T))) by field.
    assert (U400 : x + T <= pw 400). { apply Rle_trans with (pw 28); [|apply pw_le; lia]. assert (pw 28 = 128 * pw 21) by (change 128 with (pw 7); rewrite pw_mul; reflexivity). assert (pw 20 <= pw 21) by (apply pw_le; lia). lra. }
    repeat split; lra. Qed.

  (** the volume of a neighbour *)
  Lemma volume_small p q : In p ps -> In q ps -> exists v, fget_volume env per boxes p [q] = Ok v /\ fin v /\ 0 <= val v <= Bv.
  Proof. intros Ip Iq. destruct (vector_short p q Ip Iq) as (w & Ew & Lw & Fw & Rw). unfold fget_volume. cbn [map sequence]. rewrite Ew. cbn [bind sequence]. destruct Env as (_ & _ & _ & _ & _ & _ & Sv & _).
    destruct (Sv w) as (s & Es & Fs & S0 & As); [intros ->; apply Nb; destruct boxes; [reflexivity|discriminate]|exact (eq_ind_r (fun n => (n <= 64)%nat) Lb Lw)|exact Fw|]. assert (Es2 : fe_svd env (@cons fpoint w (@nil fpoint)) = @Ok (list double) (@cons double s (@nil double))) by exact Es. rewrite Es2. cbn [bind length Nat.ltb Nat.leb fold_left].
    destruct numbers as (N1 & N2 & N3 & _). assert (SB : val s <= Bv). { unfold Bv. change (map B2R w) with (map val w) in As. set (L := rlength (map val w)) in *. assert (0 <= L) by apply rlength_nonneg. pose proof (pw_pos (-40)). assert ((1 + pw (-40)) * L <= (1 + pw (-40)) * (2 * r + 5 / 4 * (pw (-41) * T))) by (apply Rmult_le_compat_l; lra). apply abs_le in As. change (B2R s) with (val s) in As. lra. }
    destruct fone_val as (F1 & V1). destruct (fmul_val fone s 400 ltac:(lia) F1 Fs) as (Fm & Vm); [rewrite V1, Rmult_1_l, Rabs_pos_eq by exact S0; change (B2R s) with (val s) in *; lra|]. rewrite V1, Rmult_1_l, rnd_id in Vm by apply val_format.
    exists (fabs (fmul fone s)). split; [reflexivity|]. split; [unfold fin, fabs; rewrite is_finite_Babs; exact Fm|]. unfold fabs. rewrite B2R_Babs. change (B2R (fmul fone s)) with (val (fmul fone s)). rewrite Vm, Rabs_pos_eq by exact S0. split; [exact S0|exact SB]. Qed.
  (** the average of volumes is below the limit *)
  Lemma avg_below l : Forall (fun v => fin v /\ 0 <= val v <= Bv) l -> (length l <= 2 ^ 20)%nat -> favg_gt env l lim = false.
  Proof. intros F L. destruct l as [|v0 l']; [reflexivity|]. unfold favg_gt. set (l := v0 :: l') in *. destruct numbers as (N1 & N2 & N3 & N4). destruct Env as (_ & _ & _ & _ & Sm & _).
    assert (L21 : (length l <= 2 ^ 21)%nat) by (eapply Nat.le_trans; [exact L|]; apply Nat.pow_le_mono_r; lia).
    assert (Fo : Forall (okc (val fs + T)) l) by (eapply Forall_impl; [|exact F]; intros v (Fv & Bd); split; auto; rewrite Rabs_pos_eq by apply Bd; lra).
    assert (Ne : l <> []) by discriminate. destruct (mean_bound (val fs + T) N3 l (fe_sum env l) (Sm l) Fo Ne L21) as (Fm & Em & _). fold (favg env l) in Fm, Em.
    assert (N : 1 <= INR (length l) <= 1048576). { split; [unfold l; cbn [length]; rewrite S_INR; pose proof (pos_INR (length l')); lra|]. replace 1048576 with (INR (2 ^ 20)); [apply le_INR; exact L|]. rewrite pow_INR. replace (INR 2) with 2 by (cbn; lra). lra. }
    assert (Sl : rsum (map val l) / INR (length l) <= Bv). { apply (Rmult_le_reg_r (INR (length l))); [lra|]. unfold Rdiv. rewrite Rmult_assoc, Rinv_l, Rmult_1_r, Rmult_comm by lra. apply rsum_le_const. intros v Hv. rewrite Forall_forall in F. apply (F v Hv). }
    assert (E : INR (length l) * pw (-51) * (val fs + T) <= pw (-31) * (val fs + T)). { apply Rmult_le_compat_r; [pose proof (pw_pos (-400)); lra|]. replace (pw (-31)) with (1048576 * pw (-51)) by (change 1048576 with (pw 20); rewrite pw_mul; reflexivity). apply Rmult_le_compat_r; [left; apply pw_pos|lra]. }
    destruct lim_val as (Fl & Vl). unfold flt. rewrite Bltb_correct by assumption. apply Rlt_bool_false. change (B2R (favg env l)) with (val (favg env l)). change (B2R lim) with (val lim). apply abs_le in Em. lra. Qed.
  Lemma tuples_false p : In p ps -> forall ts seen results, (forall t, In t ts -> exists q, t = [q] /\ In q ps) -> Forall (fun v => fin v /\ 0 <= val v <= Bv) results -> (length results + length ts <= 2 ^ 20)%nat ->
    exists u, fevaluate_tuples env per boxes p 10 lim seen results ts = Ok (false, u).
  Proof. intros Ip. induction ts as [|t ts IH]; intros seen results Ht F L.
    - exists seen. cbn [fevaluate_tuples]. rewrite avg_below; auto. cbn [length] in L. rewrite Nat.add_0_r in L. exact L.
    - cbn [fevaluate_tuples]. assert (L1 : (length results <= 2 ^ 20)%nat) by (eapply Nat.le_trans; [|exact L]; apply Nat.le_add_r). destruct (_ && _ && _); [exists seen; rewrite avg_below; auto|].
      destruct (Ht t (or_introl eq_refl)) as (q & -> & Iq). destruct (volume_small p q Ip Iq) as (v & Ev & Fv & Bd). rewrite Ev. cbn [bind]. apply IH.
      + intros t' It. apply Ht. right. exact It.
      + apply Forall_app. split; auto.
      + rewrite app_length. cbn [length] in *. rewrite <- Nat.add_assoc. exact L. Qed.
End Local.

(** ** the dimension of a cluster *)
Lemma counted n : (1 <= n <= 2 ^ 20)%nat -> fcheck_count [(0%nat, n)] = Ok (true, 0%nat).
Proof. intros (H1 & H2). unfold fcheck_count. cbn [most_common map snd list_sum fold_right]. rewrite Nat.add_0_r. assert (Z1 : (1 <= Z.of_nat n)%Z) by (apply (Nat2Z.inj_le 1); exact H1).
  assert (Z2 : (Z.of_nat n <= 2 ^ 20)%Z) by (replace (2 ^ 20)%Z with (Z.of_nat (2 ^ 20)) by (rewrite Nat2Z.inj_pow; reflexivity); apply Nat2Z.inj_le; exact H2). assert (Z3 : (2 ^ 20 <= 2 ^ 50)%Z) by (apply Z.pow_le_mono_r; lia). clear H1 H2.
  rewrite C54_two_thirds by lia. replace (2 * Z.of_nat n <=? 3 * Z.of_nat n)%Z with true; [reflexivity|]. symmetry. apply Z.leb_le. lia. Qed.
Lemma count_zero local min_pos : forall ps i n, (1 <= min_pos)%nat -> (forall p, In p ps -> local p = Ok 0%nat) -> (n + length ps <= 2 ^ 20)%nat -> (1 <= n + length ps)%nat -> (n = i)%nat ->
  fcount_dimensions local min_pos i (if (n =? 0)%nat then [] else [(0%nat, n)]) ps = Ok (Some 0%nat).
Proof. induction ps as [|p ps IH]; intros i n Hm H L1 L2 E; subst i.
  - cbn [length] in *. rewrite Nat.add_0_r in *. cbn [fcount_dimensions]. destruct n as [|n]; [exfalso; apply (Nat.nle_succ_0 0); exact L2|]. change (S n =? 0)%nat with false. cbn [fcount_dimensions]. rewrite counted by (split; auto; apply le_n_S, Nat.le_0_l). reflexivity.
  - cbn [fcount_dimensions]. assert (Nx : fcount_dimensions local min_pos (S n) (counter_add 0 (if (n =? 0)%nat then [] else [(0%nat, n)])) ps = Ok (Some 0%nat)).
    { replace (counter_add 0 (if (n =? 0)%nat then [] else [(0%nat, n)])) with (if (S n =? 0)%nat then [] else [(0%nat, S n)]) by (destruct n; reflexivity). apply IH; auto; [intros q Hq; apply H; right; exact Hq| |]; cbn [length] in *; rewrite Nat.add_succ_r in *; cbn [Nat.add]; auto. }
    destruct (min_pos <=? n)%nat eqn:C.
    + apply Nat.leb_le in C. assert (N1 : (1 <= n)%nat) by exact (Nat.le_trans _ _ _ Hm C). destruct n as [|n]; [exfalso; apply (Nat.nle_succ_0 0); exact N1|]. change (S n =? 0)%nat with false. cbn beta iota. rewrite counted; [reflexivity|]. split; auto. eapply Nat.le_trans; [|exact L1]. apply Nat.le_add_r.
    + cbn [bind]. rewrite (H p (or_introl eq_refl)). cbn [bind]. exact Nx. Qed.

Section Isolated.
  Variables (env : fenvironment) (per : bool) (boxes : list (double * double)) (fs : double) (M r : R) (centres : list (list R)) (positions : list (list double)).
  Hypothesis Env : good_fenvironment env.
  Hypothesis GC : good_clustering boxes fs positions.
  Hypothesis Ms : moderate_size M boxes fs positions.
  Hypothesis Iso : fisolated per boxes fs r centres positions.
  Notation clusters := (fcreate_clusters (fe_order env) (fe_edges env) per boxes fs positions).
  Let T := total_size boxes.

  Lemma e_ord : any_order (fe_order env). Proof. apply Env. Qed.
  Lemma e_edg : any_order (fe_edges env). Proof. apply Env. Qed.
  Lemma pos_len x : In x positions -> length (place x) = length boxes.
  Proof. intros I. unfold place. rewrite map_length. destruct GC as (_ & _ & _ & _ & Gp). exact (len_p boxes positions Gp x I). Qed.
  Lemma centre_len c : In c centres -> length c = length boxes.
  Proof. destruct Iso as (H & _). rewrite Forall_forall in H. auto. Qed.
  Lemma r_pos : 0 <= r. Proof. apply Iso. Qed.
  Lemma T_pos : pw (-400) <= T.
  Proof. destruct GC as (Gb & Nb & Lb & (Ff & _)). destruct Ms as (_ & _ & Hb & _). apply (T_range boxes Gb Nb Lb Hb). Qed.
  Lemma f_range : pw (-26) * T <= val fs <= pw 20.
  Proof. destruct GC as (Gb & Nb & Lb & Ff & _). destruct Ms as (_ & Uf & Hb & _). destruct Iso as (_ & R0 & R8 & _). apply (fs_range boxes fs r Gb Nb Lb (conj Ff Uf) Hb R0 R8). Qed.
  Lemma slack_val : slack boxes fs = 16384 * (pw (-39) * (val fs + T)) /\ 0 < pw (-39) * T /\ 0 < pw (-39) * val fs.
  Proof. pose proof T_pos. pose proof f_range. pose proof (pw_pos (-400)). pose proof (pw_pos (-26)). pose proof (pw_pos (-39)). assert (0 < pw (-26) * T) by (apply Rmult_lt_0_compat; lra). split; [|split; apply Rmult_lt_0_compat; lra]. unfold slack. fold T. replace (pw (-25)) with (16384 * pw (-39)); [ring|]. change 16384 with (pw 14). rewrite pw_mul. reflexivity. Qed.
  Lemma same_close x y c : In x positions -> In y positions -> In c centres -> within per boxes (place x) c r -> within per boxes (place y) c r -> surely_close per boxes fs x y.
  Proof. intros Ix Iy Ic Wx Wy. pose proof r_pos as R0. exists (r + r). split; [lra|]. split.
    - apply within_place_iff. apply (within_triangle per boxes (place x) c (place y)); auto using pos_len, centre_len. apply within_rsym; auto using pos_len, centre_len.
    - destruct slack_val as (S & S1 & S2). unfold dist_error. fold T. destruct Iso as (_ & _ & R8 & _). rewrite S in R8. pose proof (pw_pos (-43)). assert (pw (-43) <= / 4) by (change (/ 4) with (pw (-2)); apply pw_le; lia). assert (pw (-43) * (r + r) <= / 4 * (r + r)) by (apply Rmult_le_compat_r; lra). change (B2R fs) with (val fs). lra. Qed.
  Lemma other_apart x y c d : In x positions -> In y positions -> In c centres -> In d centres -> c <> d -> within per boxes (place x) c r -> within per boxes (place y) d r -> surely_apart per boxes fs x y.
  Proof. intros Ix Iy Ic Id N Wx Wy W. apply within_place_iff in W. pose proof r_pos as R0. destruct Iso as (_ & _ & _ & _ & Far & _). apply (Far c d Ic Id N). destruct slack_val as (S & S1 & S2).
    assert (D : 0 <= B2R fs + dist_error boxes (B2R fs) /\ dist_error boxes (B2R fs) <= slack boxes fs).
    { unfold dist_error. fold T. change (B2R fs) with (val fs). rewrite S. pose proof (pw_pos (-39)). assert (pw (-43) <= pw (-39)) by (apply pw_le; lia). pose proof (pw_pos (-43)). assert (0 < val fs) by (apply (Rmult_lt_reg_l (pw (-39))); lra). assert (0 <= pw (-43) * val fs) by (apply Rmult_le_pos; lra). assert (pw (-43) * val fs <= pw (-39) * val fs) by (apply Rmult_le_compat_r; lra). lra. }
    apply (within_incr per boxes c d (r + ((B2R fs + dist_error boxes (B2R fs)) + r))); [lra|].
    apply (within_triangle per boxes c (place x) d); auto using pos_len, centre_len; [lra|apply within_rsym; auto using pos_len, centre_len|]. apply (within_triangle per boxes (place x) (place y) d); auto using pos_len, centre_len. lra. Qed.

  Lemma node_pos g x : In g clusters -> In x (g_nodes g) -> In x positions.
  Proof. intros Ig Ix. destruct (C69_partition (fe_order env) (fe_edges env) per boxes fs positions e_ord e_edg GC) as (_ & _ & Pos & _). exact (Pos g x Ig Ix). Qed.
  Lemma nodes_ne g : In g clusters -> g_nodes g <> [].
  Proof. intros Ig. destruct (C69_partition (fe_order env) (fe_edges env) per boxes fs positions e_ord e_edg GC) as (_ & _ & _ & H). apply (H g Ig). Qed.
  (** the nodes of a cluster are near one centre *)
  Lemma cluster_near g : In g clusters -> exists c, In c centres /\ forall x, In x (g_nodes g) -> within per boxes (place x) c r.
  Proof. intros Ig. assert (X : exists x, In x (g_nodes g)) by (pose proof (nodes_ne g Ig) as N; destruct (g_nodes g) as [|x l]; [congruence|exists x; left; reflexivity]). destruct X as (x & Ix).
    pose proof Iso as (_ & _ & _ & _ & _ & Cov). destruct (Cov x (node_pos g x Ig Ix)) as (c & Ic & Wc). exists c. split; auto. intros y Iy.
    pose proof (C69_connected (fe_order env) (fe_edges env) per boxes fs positions x y g e_ord e_edg GC Ig Ix Iy) as L.
    refine (linked_closed (fun z => within per boxes (place z) c r) _ L Wc). intros a b Wa (Ia & Ib & Na). apply (node_pos g) in Ia, Ib; auto. destruct (Cov b Ib) as (d & Id & Wd). destruct (list_eq_dec Req_EM_T c d) as [->|N]; auto.
    exfalso. apply Na. apply (other_apart a b c d); auto. Qed.
  Lemma cluster_nodup g : In g clusters -> wf_graph g /\ NoDup (g_nodes g) /\ (length (g_nodes g) <= 2 ^ 20)%nat.
  Proof. intros Ig. pose proof (fcluster_wf (fe_order env) (fe_edges env) per boxes fs positions e_ord e_edg (gc_finite boxes fs positions GC) g Ig) as W. split; auto. assert (Nd : NoDup (g_nodes g)) by apply W. split; auto.
    destruct Ms as (_ & _ & _ & _ & Ln). eapply Nat.le_trans; [|exact Ln]. apply NoDup_incl_length; auto. intros x Ix. exact (node_pos g x Ig Ix). Qed.
  Lemma tuples_ok g p : In g clusters -> (forall t, In t (fe_tuples env g p 1) -> exists q, t = [q] /\ In q (g_nodes g)) /\ (length (fe_tuples env g p 1) <= 2 ^ 20)%nat.
  Proof. intros Ig. destruct (cluster_nodup g Ig) as (W & Nd & Ln). destruct Env as (_ & _ & _ & Tu & _). destruct (Tu g p 1%nat W) as (Ch & _ & Df). set (ts := fe_tuples env g p 1) in *.
    assert (A : forall t, In t ts -> exists q, t = [q] /\ In q (g_nodes g)).
    { intros t It. rewrite Forall_forall in Ch. destruct (Ch t It) as (_ & In1 & L1). destruct t as [|q [|]]; try discriminate. exists q. split; auto. assert (Iq : In q (neighbors g p)) by (apply In1; left; reflexivity). apply in_neighbors in Iq. apply (wf_ends W Iq). }
    split; auto. eapply Nat.le_trans; [|exact Ln]. rewrite <- (map_length (fun q => [q]) (g_nodes g)). apply NoDup_incl_length.
    - apply NoDup_nth_error. intros i j Hi E. destruct (nth_error ts i) as [t|] eqn:Ei; [|apply nth_error_None in Ei; exfalso; apply (Nat.lt_irrefl i); eapply Nat.lt_le_trans; eauto]. exact (Df i j t t Ei (eq_trans (eq_sym E) Ei) (Permutation_refl t)).
    - intros t It. destruct (A t It) as (q & -> & Iq). apply (in_map (fun q => [q])). exact Iq. Qed.
  Lemma pos_ne p : In p positions -> (length p <? 1)%nat = false.
  Proof. intros Ip. destruct GC as (_ & Nb & _ & _ & Gp). pose proof (len_p boxes positions Gp p Ip) as L. destruct p as [|x p]; [|reflexivity]. exfalso. apply Nb. destruct boxes; [reflexivity|discriminate]. Qed.
  Lemma moderate_sub g : In g clusters -> Forall (Forall (fun x => Rabs (val x) <= M)) (g_nodes g) /\ Forall (good_position boxes) (g_nodes g).
  Proof. intros Ig. destruct Ms as (_ & _ & _ & Hp & _). destruct GC as (_ & _ & _ & _ & Gp). rewrite Forall_forall in Hp, Gp. split; apply Forall_forall; intros x Ix; [apply Hp|apply Gp]; exact (node_pos g x Ig Ix). Qed.
  Lemma node_dim0 g p : In g clusters -> In p (g_nodes g) -> fget_dimension env per boxes fs g p 3 (Some 10%nat) = Ok 0%nat.
  Proof. intros Ig Ip. destruct (cluster_near g Ig) as (c & Ic & Wc). destruct (cluster_nodup g Ig) as (W & Nd & Ln). destruct (moderate_sub g Ig) as (Hp & Gp). destruct (tuples_ok g p Ig) as (Ts & Lt).
    destruct GC as (Gb & Nb & Lb & Ff & _). destruct Ms as (HM & Uf & Hb & _). destruct Iso as (_ & R0 & R8 & Bx & _).
    destruct (tuples_false env per boxes fs M r c (g_nodes g) Gb Nb Lb Env HM (conj Ff Uf) Hb Hp Ln Gp (centre_len c Ic) R0 R8 Bx Wc p Ip (fe_tuples env g p 1) [] [] Ts (Forall_nil _) Lt) as (u & Eu).
    unfold fget_dimension. cbn [fget_dimension_from]. unfold fhas_dimension. rewrite (pos_ne p (node_pos g p Ig Ip)). cbn [fexact_value]. rewrite Eu. reflexivity. Qed.
  Lemma cluster_dimension0 g : In g clusters -> fcalculate_dimension env per boxes fs g = Ok (Some 0%nat).
  Proof. intros Ig. destruct (cluster_nodup g Ig) as (W & Nd & Ln). assert (Sh : any_order (fe_shuffle env g)) by apply Env. unfold fcalculate_dimension. pose proof (Sh (g_nodes g)) as Pm. set (sh := fe_shuffle env g (g_nodes g)) in *.
    assert (Lsh : length sh = length (g_nodes g)) by (apply Permutation_length; first [exact Pm|apply Permutation_sym; exact Pm]).
    refine (count_zero _ 5 sh 0 0 _ _ _ _ eq_refl).
    - apply le_n_S, Nat.le_0_l.
    - intros p Ip. apply node_dim0; auto. eapply Permutation_in; [exact Pm|exact Ip].
    - cbn [Nat.add]. rewrite Lsh. exact Ln.
    - cbn [Nat.add]. rewrite Lsh. pose proof (nodes_ne g Ig) as N. destruct (g_nodes g); [congruence|]. apply le_n_S, Nat.le_0_l. Qed.
  Lemma cluster_point g : In g clusters -> exists i c, fidentify_cluster env per boxes fs g = Ok i /\ fi_positions i = g_nodes g /\ In c centres /\ fpoint_at per boxes r M positions c i.
  Proof. intros Ig. destruct (cluster_near g Ig) as (c & Ic & Wc). destruct (cluster_nodup g Ig) as (W & Nd & Ln). destruct (moderate_sub g Ig) as (Hp & Gp).
    unfold fidentify_cluster. rewrite (cluster_dimension0 g Ig). cbn [bind fevaluate_cluster].
    pose proof GC as (Gb & Nb & Lb & Ff & _). pose proof Ms as (HM & Uf & Hb & _). pose proof Iso as (_ & R0 & R8 & Bx & _). assert (Col : forall l, summed l (fe_column_sum env l)) by apply Env.
    destruct (average_accurate env per boxes M r c (g_nodes g) Gb Lb Col HM Hb Hp Ln (nodes_ne g Ig) Gp (centre_len c Ic) R0 (r_half per boxes fs r Gb Nb Lb (conj Ff Uf) Hb R0 R8 Bx) Wc) as (A & EA & LA & FA & WA & IA).
    rewrite EA. cbn [bind]. eexists. exists c. split; [reflexivity|]. split; [reflexivity|]. split; auto. split; [reflexivity|]. cbn [fi_shape fi_positions fi_dimension]. split; [exists A; auto|]. split; [intros x Ix; exact (node_pos g x Ig Ix)|].
    intros x Ix. split.
    - intros (y & Iy & Sy). rewrite (same_place_eq _ _ Sy). apply Wc. exact Iy.
    - intros Wx. pose proof (nodes_ne g Ig) as N. assert (Y : exists y, In y (g_nodes g)) by (destruct (g_nodes g) as [|y l]; [congruence|exists y; left; reflexivity]). destruct Y as (y & Iy).
      apply (C69_close_together (fe_order env) (fe_edges env) per boxes fs positions y x g e_ord e_edg GC (node_pos g y Ig Iy) Ix); auto; [|exists y; split; auto; apply same_place_refl]. apply (same_close y x c); auto. apply (node_pos g y Ig Iy). Qed.
  Lemma one_centre x c d : In x positions -> In c centres -> In d centres -> within per boxes (place x) c r -> within per boxes (place x) d r -> c = d.
  Proof. intros Ix Ic Id Wc Wd. destruct (list_eq_dec Req_EM_T c d) as [|N]; auto. exfalso. apply (other_apart x x c d Ix Ix Ic Id N Wc Wd). destruct (same_close x x c Ix Ix Ic Wc Wc) as (e & E0 & W & L).
    apply within_place_iff in W. apply within_place_iff. apply (within_incr per boxes _ _ e); auto. destruct GC as (Gb & _). pose proof (error_nonneg boxes e Gb E0). pose proof (error_mono boxes e (B2R fs) ltac:(lra)). lra. Qed.
  Lemma clusters_nodup : NoDup clusters.
  Proof. pose proof (fclusters_partition (fe_order env) (fe_edges env) per boxes fs positions e_ord (gc_finite boxes fs positions GC)) as Pm. pose proof (fus_nodup (fe_order env) positions e_ord (gc_finite boxes fs positions GC)) as Nu.
    assert (Nd : NoDup (concat (map (@g_nodes fpoint double) clusters))) by (eapply Permutation_NoDup; [apply Permutation_sym; exact Pm|exact Nu]). assert (Ne : forall g, In g clusters -> g_nodes g <> []) by exact nodes_ne.
    clear - Nd Ne. induction clusters as [|g l IH]; constructor.
    - intros I. pose proof (Ne g (or_introl eq_refl)) as N. cbn [map concat] in Nd. destruct (g_nodes g) as [|x m] eqn:Q; [congruence|]. cbn [app] in Nd. inversion Nd as [|? ? Nx _]; subst. apply Nx. apply in_app_iff. right. apply in_concat. exists (g_nodes g). split; [apply in_map; exact I|rewrite Q; left; reflexivity].
    - apply IH; [|intros; apply Ne; right; auto]. cbn [map concat] in Nd. clear - Nd. induction (g_nodes g); cbn [app] in Nd; auto. inversion Nd; auto. Qed.
  Theorem fisolated_points : exists rs found, frun_from_positions env per boxes fs positions = Ok rs /\ Forall2 (fpoint_at per boxes r M positions) found rs /\ NoDup found /\
    forall c, In c found <-> In c centres /\ exists x, In x positions /\ within per boxes (place x) c r.
  Proof. destruct (choose_list (fun g (ic : fident * list R) => fidentify_cluster env per boxes fs g = Ok (fst ic) /\ fi_positions (fst ic) = g_nodes g /\ In (snd ic) centres /\ fpoint_at per boxes r M positions (snd ic) (fst ic)) clusters) as (m & Em & Hm).
    { intros g Ig. destruct (cluster_point g Ig) as (i & c & H). exists (i, c). exact H. }
    assert (Hc : forall q, In q m -> In (fst q) clusters) by (intros q Iq; rewrite <- Em; apply in_map; exact Iq).
    exists (map (fun q => fst (snd q)) m), (map (fun q => snd (snd q)) m). split; [|split; [|split]].
    - unfold frun_from_positions. rewrite <- Em, map_map. apply sequence_ok. intros q Iq. apply (Hm q Iq).
    - assert (F : Forall (fun q => fpoint_at per boxes r M positions (snd (snd q)) (fst (snd q))) m) by (apply Forall_forall; intros q Iq; apply (Hm q Iq)). clear - F. induction F as [|q m H F IH]; cbn [map]; constructor; auto.
    - pose proof clusters_nodup as Nd. rewrite <- Em in Nd.
      assert (Inj : forall q q', In q m -> In q' m -> snd (snd q) = snd (snd q') -> fst q = fst q').
      { intros q q' Iq Iq' E. destruct (Hm q Iq) as (_ & P1 & _ & _ & _ & Sub1 & A1). destruct (Hm q' Iq') as (_ & P2 & _ & _ & _ & Sub2 & A2). pose proof (nodes_ne (fst q) (Hc q Iq)) as N.
        assert (X : exists x, In x (g_nodes (fst q))) by (destruct (g_nodes (fst q)) as [|x l]; [congruence|exists x; left; reflexivity]). destruct X as (x & Ix). pose proof (node_pos (fst q) x (Hc q Iq) Ix) as Xp.
        assert (W : within per boxes (place x) (snd (snd q)) r) by (apply (A1 x Xp); exists x; split; [rewrite P1; exact Ix|apply same_place_refl]). rewrite E in W. apply (A2 x Xp) in W as (y & Iy & Sy). rewrite P2 in Iy.
        destruct (C69_partition (fe_order env) (fe_edges env) per boxes fs positions e_ord e_edg GC) as (_ & Uq & _). apply (Uq (fst q) (fst q') x (Hc q Iq) (Hc q' Iq')); [exists x; split; auto; apply same_place_refl|exists y; auto]. }
      clear - Nd Inj. induction m as [|q m IH]; cbn [map] in *; constructor.
      + intros I. apply in_map_iff in I as (q' & E & Iq'). inversion Nd as [|? ? Nx _]; subst. apply Nx. rewrite <- (Inj q' q (or_intror Iq') (or_introl eq_refl) E). apply in_map. exact Iq'.
      + inversion Nd; subst. apply IH; auto. intros a b Ia Ib. apply Inj; right; auto.
    - intros c. split.
      + intros I. apply in_map_iff in I as (q & <- & Iq). destruct (Hm q Iq) as (_ & P1 & Ic & _ & _ & Sub1 & A1). split; auto. pose proof (nodes_ne (fst q) (Hc q Iq)) as N. assert (X : exists x, In x (g_nodes (fst q))) by (destruct (g_nodes (fst q)) as [|x l]; [congruence|exists x; left; reflexivity]). destruct X as (x & Ix).
        pose proof (node_pos (fst q) x (Hc q Iq) Ix) as Xp. exists x. split; auto. apply (A1 x Xp). exists x. split; [rewrite P1; exact Ix|apply same_place_refl].
      + intros (Ic & x & Ix & Wx). destruct (C69_partition (fe_order env) (fe_edges env) per boxes fs positions e_ord e_edg GC) as (Ex & _). destruct (Ex x Ix) as (g & Ig & (y & Iy & Sy)).
        assert (Iq : exists q, In q m /\ fst q = g) by (rewrite <- Em in Ig; apply in_map_iff in Ig as (q & E & Iq); eauto). destruct Iq as (q & Iq & Eq). subst g. destruct (Hm q Iq) as (_ & P1 & Id & _ & _ & _ & A1).
        assert (Wd : within per boxes (place x) (snd (snd q)) r) by (apply (A1 x Ix); exists y; split; [rewrite P1; exact Iy|exact Sy]). rewrite (one_centre x c _ Ix Ic Id Wx Wd). apply (in_map (fun q => snd (snd q))). exact Iq. Qed.
End Isolated.
