(** The average of positions in double precision. *)
From Coq Require Import ZArith Reals Psatz List Permutation.
From Flocq Require Import Core BinarySingleNaN Relative.
From Verif Require Import Base BaseFacts CoordSys Float FloatFacts FloatVector FloatVectorFacts FloatMin FloatCell SpecFloatCell FloatCellNum FloatDistNum FloatStepNum PropFloatVector SpecFloatCluster FloatIdentify SpecFloatIdentify FloatSumFacts.
From Coq Require Import Lra.
Import ListNotations.
Open Scope list_scope.
Open Scope R_scope.

(** ** one coordinate *)
Lemma mod_congr_rel b a : good_box b -> fin a -> let s := val (fsize (fst b) (snd b)) in let m := np_mod a (fsize (fst b) (snd b)) in
  fin m /\ 0 <= val m <= s /\ exists j e, val m = val a + IZR j * s + e /\ Rabs e <= pw (-53) * s + pw (-1075).
Proof. intros Gb Fa s m. destruct (size_ok b Gb) as (Fs & Ls & Us). pose proof (s_pos b Gb) as Ps. destruct (np_mod_val a _ Fa Fs Ps) as (Fm & Vm & Rm & _). fold s in Ps, Vm, Rm. fold m in Fm, Vm, Rm.
  split; auto. split; auto. set (q := Ztrunc (val a / s)) in *. destruct (fmod_range (val a) s Ps) as (R1 & R2). cbv zeta in R1, R2. fold q in R1, R2. rewrite Vm.
  destruct (Rlt_bool_spec (val a - IZR q * s) 0) as [Hm|Hm].
  - exists (1 - q)%Z, (rnd (val a - IZR q * s + s) - (val a - IZR q * s + s)). split; [rewrite minus_IZR; ring|]. eapply Rle_trans; [apply rnd_rel|]. apply Rplus_le_compat_r. apply Rmult_le_compat_l; [left; apply pw_pos|].
    assert (- s < val a - IZR q * s). { destruct (Rle_or_lt 0 (val a)); [specialize (R1 ltac:(lra)); lra|specialize (R2 ltac:(lra)); lra]. } rewrite Rabs_pos_eq by lra. lra.
  - exists (- q)%Z, 0. split; [rewrite opp_IZR; ring|]. rewrite Rabs_R0. pose proof (pw_pos (-53)). pose proof (pw_pos (-1075)). nra. Qed.
Lemma small_parts b : good_box b -> let s := val (fsize (fst b) (snd b)) in let t := pw (-41) * s in 0 < t /\ t <= / 1048576 * s /\ pw (-53) * s <= / 64 * t /\ pw (-1075) <= / 64 * t.
Proof. intros Gb s t. pose proof (s_pos b Gb) as Ps. pose proof (tiny b Gb) as T. fold s in Ps, T. pose proof (pw_pos (-41)). split; [apply Rmult_lt_0_compat; lra|]. split; [apply Rmult_le_compat_r; [lra|]; change (/ 1048576) with (pw (-20)); apply pw_le; lia|].
  unfold t. rewrite <- !Rmult_assoc. assert (A : pw (-53) <= / 64 * pw (-41)) by (change (/ 64) with (pw (-6)); rewrite pw_mul; apply pw_le; lia). assert (B : pw (-60) <= / 64 * pw (-41)) by (change (/ 64) with (pw (-6)); rewrite pw_mul; apply pw_le; lia).
  split; [apply Rmult_le_compat_r; lra|]. eapply Rle_trans; [exact T|]. apply Rmult_le_compat_r; lra. Qed.
Lemma connect_accurate b x y : good_box b -> good_coord b x -> good_coord b y -> let s := val (fsize (fst b) (snd b)) in let v := fconnect b x y in
  fin v /\ Rabs (val v) <= s / 2 + pw (-41) * s /\ exists j, Rabs (val v - (val y - val x + IZR j * s)) <= 5 / 4 * (pw (-41) * s).
Proof. intros Gb (Fx & Bx) (Fy & By) s v. change (fbox_size b) with s in Bx, By. destruct (size_ok b Gb) as (Fs & Ls & Us). pose proof (s_pos b Gb) as Ps. fold s in Ls, Us, Ps. destruct (small_parts b Gb) as (Tp & Ts & T53 & T1). fold s in Tp, Ts, T53, T1. set (t := pw (-41) * s) in *.
  assert (B : Rabs (val y - val x) <= pw 11 * s) by (change 11%Z with (10 + 1)%Z; rewrite pow_succ; rewrite abs_le in *; lra).
  destruct (diff_val b Gb y x Fy Fx B) as (Fa & Ea). fold s in Ea. fold t in Ea. unfold v, fconnect. cbv zeta. destruct (mod_congr_rel b (fsub y x) Gb Fa) as (Fm & Rm & j & e & Em & Be). cbv zeta in *. fold s in Rm, Em, Be.
  set (S := fsize (fst b) (snd b)) in *. set (a := fsub y x) in *. set (m := np_mod a S) in *.
  assert (Bm : Rabs (val m - val S) <= pw 401) by (fold s; rewrite abs_le; lra). destruct (fsub_val m S 401 ltac:(lia) Fm Fs Bm) as (Fn & Vn). fold s in Vn.
  pose proof (rnd_rel (val m - s)) as En. rewrite <- Vn in En. assert (Y53 : pw (-53) * Rabs (val m - s) <= pw (-53) * s) by (apply Rmult_le_compat_l; [left; apply pw_pos|rewrite Rabs_left1; lra]).
  assert (Fo : fin (fopp (fsub m S))) by (unfold fin, fopp; rewrite is_finite_Bopp; exact Fn). assert (Vo : val (fopp (fsub m S)) = - val (fsub m S)) by apply B2R_Bopp.
  assert (Lc : flt (fopp (fsub m S)) m = Rlt_bool (- val (fsub m S)) (val m)) by (unfold flt; rewrite Bltb_correct by auto; rewrite Vo; reflexivity). rewrite Lc.
  destruct (Rlt_bool_spec (- val (fsub m S)) (val m)) as [Hc|Hc].
  - split; auto. split; [assert (val (fsub m S) <= 0) by (rewrite Vn; apply rnd_neg; lra); rewrite abs_le in *; lra|].
    exists (j - 1)%Z. rewrite minus_IZR. rewrite abs_le in *. lra.
  - split; auto. split; [rewrite abs_le in *; lra|]. exists j. rewrite abs_le in *. lra. Qed.

(** ** sums over the coordinates *)
Definition rs (n : nat) (f : nat -> R) : R := rsum (map f (seq 0 n)).
Lemma rs_succ n f : rs (S n) f = f 0%nat + rs n (fun i => f (S i)).
Proof. unfold rs, rsum. cbn [seq map fold_right]. rewrite <- seq_shift, map_map. reflexivity. Qed.
Lemma rs_le n f g : (forall i, (i < n)%nat -> f i <= g i) -> rs n f <= rs n g.
Proof. revert f g. induction n as [|n IH]; intros f g H; [unfold rs, rsum; cbn; lra|]. rewrite !rs_succ. pose proof (H 0%nat ltac:(lia)). pose proof (IH (fun i => f (S i)) (fun i => g (S i)) (fun i Hi => H (S i) ltac:(lia))). lra. Qed.
Lemma rs_ext n f g : (forall i, (i < n)%nat -> f i = g i) -> rs n f = rs n g.
Proof. intros H. apply Rle_antisym; apply rs_le; intros i Hi; rewrite H; auto; lra. Qed.
Lemma rs_nonneg n f : (forall i, (i < n)%nat -> 0 <= f i) -> 0 <= rs n f.
Proof. intros H. replace 0 with (rs n (fun _ => 0)); [apply rs_le; auto|]. clear. induction n as [|n IH]; [reflexivity|]. rewrite rs_succ, IH. ring. Qed.
Lemma rs_scal n a f : rs n (fun i => a * f i) = a * rs n f.
Proof. revert f. induction n as [|n IH]; intros f; [unfold rs, rsum; cbn; ring|]. rewrite !rs_succ, (IH (fun i => f (S i))). ring. Qed.
Lemma rs_plus n f g : rs n (fun i => f i + g i) = rs n f + rs n g.
Proof. revert f g. induction n as [|n IH]; intros f g; [unfold rs, rsum; cbn; ring|]. rewrite !rs_succ, (IH (fun i => f (S i)) (fun i => g (S i))). ring. Qed.
Lemma rs_const n a : rs n (fun _ => a) = INR n * a.
Proof. induction n as [|n IH]; [unfold rs, rsum; cbn; ring|]. rewrite rs_succ, IH, S_INR. ring. Qed.
Lemma rs_swap {A} n (l : list A) (f : A -> nat -> R) : rs n (fun i => rsum (map (fun p => f p i) l)) = rsum (map (fun p => rs n (f p)) l).
Proof. induction l as [|p l IH]; [unfold rsum; cbn; rewrite rs_const; ring|]. unfold rsum in *. cbn [map fold_right]. rewrite <- IH, <- rs_plus. reflexivity. Qed.

Definition nob : double * double := (B754_zero false, B754_zero false).
Definition sz (boxes : list (double * double)) (i : nat) : R := fbox_size (nth i boxes nob).
Lemma total_rs boxes : total_size boxes = rs (length boxes) (sz boxes).
Proof. unfold total_size, sz. induction boxes as [|b boxes IH]; [reflexivity|]. cbn [length map fold_right]. rewrite rs_succ, IH. reflexivity. Qed.
Lemma image_rs : forall boxes p q ks, length p = length boxes -> length q = length boxes -> length ks = length boxes ->
  image_sq boxes p q ks = rs (length boxes) (fun i => (nth i p 0 - nth i q 0 - IZR (nth i ks 0%Z) * sz boxes i) ^ 2).
Proof. induction boxes as [|b boxes IH]; intros [|x p] [|y q] [|k ks] L1 L2 L3; try discriminate; [reflexivity|]. cbn [length image_sq]. rewrite rs_succ, IH by (cbn in *; lia). reflexivity. Qed.
(** by coordinates *)
Definition off (boxes : list (double * double)) (p c : list R) (k : nat -> Z) (i : nat) : R := nth i p 0 - nth i c 0 - IZR (k i) * sz boxes i.
Lemma within_off per boxes p c d : length p = length boxes -> length c = length boxes ->
  (within per boxes p c d <-> exists k, (per = false -> forall i, k i = 0%Z) /\ rs (length boxes) (fun i => (off boxes p c k i) ^ 2) <= d ^ 2).
Proof. intros Lp Lc. split.
  - intros (ks & Lk & Z & H). exists (fun i => nth i ks 0%Z). split; [|rewrite image_rs in H by auto; exact H]. intros E i. specialize (Z E). destruct (nth_in_or_default i ks 0%Z) as [I|]; auto. rewrite Forall_forall in Z. auto.
  - intros (k & Z & H). exists (map k (seq 0 (length boxes))). rewrite map_length, seq_length. split; auto. split; [intros E; apply Forall_forall; intros z Hz; apply in_map_iff in Hz as (i & <- & _); auto|].
    rewrite image_rs; auto; [|rewrite map_length, seq_length; auto]. eapply Rle_trans; [|exact H]. right. apply rs_ext. intros i Hi. unfold off. rewrite (nth_indep _ 0%Z (k 0%nat)) by (rewrite map_length, seq_length; auto). rewrite map_nth, seq_nth by auto. reflexivity. Qed.

(** the length of a vector is at most that of another plus the sum of the differences *)
Lemma rs_triangle : forall n (a m : nat -> R) (e : nat -> R), (forall i, (i < n)%nat -> Rabs (a i - m i) <= e i) ->
  rs n (fun i => a i ^ 2) <= (sqrt (rs n (fun i => m i ^ 2)) + rs n e) ^ 2.
Proof. induction n as [|n IH]; intros a m e H; [unfold rs, rsum; cbn; rewrite sqrt_0; lra|]. rewrite !rs_succ. specialize (IH (fun i => a (S i)) (fun i => m (S i)) (fun i => e (S i)) (fun i Hi => H (S i) ltac:(lia))).
  assert (E0 : 0 <= rs n (fun i => e (S i))) by (apply rs_nonneg; intros i Hi; specialize (H (S i) ltac:(lia)); pose proof (Rabs_pos (a (S i) - m (S i))); lra). specialize (H 0%nat ltac:(lia)).
  set (Zm := rs n (fun i => m (S i) ^ 2)) in *. set (E := rs n (fun i => e (S i))) in *. assert (Z0 : 0 <= Zm) by (apply rs_nonneg; intros; nra).
  pose proof (sum_triangle (m 0%nat) Zm (e 0%nat) E (Rabs (a 0%nat)) (rs n (fun i => a (S i) ^ 2)) Z0 ltac:(pose proof (Rabs_pos (a 0%nat - m 0%nat)); lra) E0 (Rabs_pos _)) as T.
  replace (a 0%nat ^ 2) with (Rabs (a 0%nat) * Rabs (a 0%nat)) by (rewrite <- Rabs_mult, Rabs_pos_eq by nra; ring). replace ((sqrt (m 0%nat ^ 2 + Zm) + (e 0%nat + E)) ^ 2) with ((sqrt (m 0%nat ^ 2 + Zm) + (e 0%nat + E)) * (sqrt (m 0%nat ^ 2 + Zm) + (e 0%nat + E))) by ring. apply T.
  - replace (a 0%nat) with (m 0%nat + (a 0%nat - m 0%nat)) by ring. eapply Rle_trans; [apply Rabs_triang|]. lra.
  - replace ((sqrt Zm + E) * (sqrt Zm + E)) with ((sqrt Zm + E) ^ 2) by ring. exact IH. Qed.
Lemma rs_bound n f i : (i < n)%nat -> (forall j, (j < n)%nat -> 0 <= f j) -> f i <= rs n f.
Proof. revert f i. induction n as [|n IH]; intros f i Hi H; [lia|]. rewrite rs_succ. destruct i as [|i].
  - assert (0 <= rs n (fun i => f (S i))) by (apply rs_nonneg; intros; apply H; lia). lra.
  - specialize (IH (fun i => f (S i)) i ltac:(lia) (fun j Hj => H (S j) ltac:(lia))). specialize (H 0%nat ltac:(lia)). lra. Qed.

(** the length of an average *)
Lemma square_mean l : l <> [] -> (rsum l / INR (length l)) ^ 2 <= rsum (map (fun x => x ^ 2) l) / INR (length l).
Proof. intros Ne. assert (N : 1 <= INR (length l)) by (destruct l; [congruence|]; cbn [length]; rewrite S_INR; pose proof (pos_INR (length l)); lra).
  assert (Q : rsum l ^ 2 <= INR (length l) * rsum (map (fun x => x ^ 2) l) /\ 0 <= rsum (map (fun x => x ^ 2) l)).
  { clear. unfold rsum. induction l as [|x l (IH & P)]; [cbn; lra|]. cbn [map fold_right length]. rewrite S_INR. set (T := fold_right Rplus 0 l) in *. set (U := fold_right Rplus 0 (map _ l)) in *. split; [|nra].
    pose proof (pos_INR (length l)) as Pn. set (n := INR (length l)) in *. destruct (Req_dec n 0) as [E|E].
    - rewrite E in *. assert (T = 0) by nra. nra.
    - assert (2 * T * x <= U + n * x ^ 2); [|nra]. apply (Rmult_le_reg_l n); [lra|]. replace (n * (2 * T * x)) with (2 * T * (n * x)) by ring. replace (n * (U + n * x ^ 2)) with (n * U + (n * x) ^ 2) by ring. set (y := n * x). pose proof (pow2_ge_0 (T - y)) as Sq. replace ((T - y) ^ 2) with (T ^ 2 - 2 * T * y + y ^ 2) in Sq by ring. lra. }
  destruct Q as (Q & _). unfold Rdiv. rewrite Rpow_mult_distr. apply (Rmult_le_reg_r (INR (length l) ^ 2)); [nra|].
  replace (rsum l ^ 2 * (/ INR (length l)) ^ 2 * INR (length l) ^ 2) with (rsum l ^ 2) by (field; lra). replace (rsum (map (fun x => x ^ 2) l) * / INR (length l) * INR (length l) ^ 2) with (INR (length l) * rsum (map (fun x => x ^ 2) l)) by (field; lra). exact Q. Qed.
Lemma mean_length {A} n (l : list A) (f : A -> nat -> R) r : l <> [] -> (forall p, In p l -> rs n (fun i => f p i ^ 2) <= r) ->
  rs n (fun i => (rsum (map (fun p => f p i) l) / INR (length l)) ^ 2) <= r.
Proof. intros Ne H. assert (N : 1 <= INR (length l)) by (destruct l; [congruence|]; cbn [length]; rewrite S_INR; pose proof (pos_INR (length l)); lra).
  apply Rle_trans with (rs n (fun i => / INR (length l) * rsum (map (fun p => f p i ^ 2) l))).
  - apply rs_le. intros i _. pose proof (square_mean (map (fun p => f p i) l) ltac:(destruct l; [congruence|discriminate])) as Q. rewrite map_length, map_map in Q. eapply Rle_trans; [exact Q|]. right. unfold Rdiv. apply Rmult_comm.
  - rewrite rs_scal, (rs_swap n l (fun p i => f p i ^ 2)). apply (Rmult_le_reg_l (INR (length l))); [lra|]. rewrite <- Rmult_assoc, Rinv_r, Rmult_1_l by lra.
    clear - H. unfold rsum. induction l as [|p l IH]; [cbn; lra|]. cbn [map fold_right length]. rewrite S_INR. pose proof (H p (or_introl eq_refl)). specialize (IH (fun q Hq => H q (or_intror Hq))). lra. Qed.

(** ** choices, averages of nearby numbers *)
Lemma choose_nat (P : nat -> Z -> Prop) n : (forall i, (i < n)%nat -> exists k, P i k) -> exists k, forall i, (i < n)%nat -> P i (k i).
Proof. induction n as [|n IH]; intros H; [exists (fun _ => 0%Z); intros; lia|]. destruct IH as (k & Hk); [intros i Hi; apply H; lia|]. destruct (H n ltac:(lia)) as (z & Hz).
  exists (fun i => if Nat.eqb i n then z else k i). intros i Hi. destruct (Nat.eqb_spec i n) as [->|N]; auto. apply Hk. lia. Qed.
Lemma choose_list {A B} (P : A -> B -> Prop) l : (forall p, In p l -> exists k, P p k) -> exists m, map fst m = l /\ forall q, In q m -> P (fst q) (snd q).
Proof. induction l as [|p l IH]; intros H; [exists []; split; auto; intros q []|]. destruct IH as (m & E & Hm); [intros; apply H; right; auto|]. destruct (H p (or_introl eq_refl)) as (k & Hk). exists ((p, k) :: m). split; [cbn; congruence|]. intros q [<-|Hq]; auto. Qed.
Lemma mean_close {A} (l : list A) f g e : l <> [] -> (forall p, In p l -> Rabs (f p - g p) <= e) -> Rabs (rsum (map f l) / INR (length l) - rsum (map g l) / INR (length l)) <= e.
Proof. intros Ne H. assert (N : 1 <= INR (length l)) by (destruct l; [congruence|]; cbn [length]; rewrite S_INR; pose proof (pos_INR (length l)); lra).
  assert (Q : Rabs (rsum (map f l) - rsum (map g l)) <= INR (length l) * e).
  { clear - H. unfold rsum. induction l as [|p l IH]; [cbn; rewrite Rminus_0_r, Rabs_R0; lra|]. cbn [map fold_right length]. rewrite S_INR. pose proof (H p (or_introl eq_refl)) as Hp. specialize (IH (fun q Hq => H q (or_intror Hq))).
    match goal with |- Rabs (?a + ?b - (?c + ?d)) <= _ => replace (a + b - (c + d)) with ((a - c) + (b - d)) by ring end. eapply Rle_trans; [apply Rabs_triang|]. lra. }
  unfold Rdiv. rewrite <- Rmult_minus_distr_r, Rabs_mult, (Rabs_pos_eq (/ INR (length l))) by (left; apply Rinv_0_lt_compat; lra). apply (Rmult_le_reg_r (INR (length l))); [lra|]. rewrite Rmult_assoc, Rinv_l by lra. lra. Qed.
Lemma mean_shift {A} (l : list A) f a : l <> [] -> rsum (map (fun p => f p - a) l) / INR (length l) = rsum (map f l) / INR (length l) - a.
Proof. intros Ne. assert (N : 1 <= INR (length l)) by (destruct l; [congruence|]; cbn [length]; rewrite S_INR; pose proof (pos_INR (length l)); lra).
  assert (E : rsum (map (fun p => f p - a) l) = rsum (map f l) - INR (length l) * a) by (clear; unfold rsum; induction l as [|p l IH]; [cbn; ring|]; cbn [map fold_right length]; rewrite S_INR, IH; ring). rewrite E. field. lra. Qed.

Lemma nth_per_coordinate (f : double * double -> double -> double -> double) z : forall boxes p q i, length p = length boxes -> length q = length boxes -> (i < length boxes)%nat ->
  nth i (per_coordinate f boxes p q) z = f (nth i boxes nob) (nth i p (B754_zero false)) (nth i q (B754_zero false)).
Proof. unfold per_coordinate. induction boxes as [|b boxes IH]; intros [|x p] [|y q] [|i] L1 L2 Hi; cbn in *; try lia; auto. apply IH; lia. Qed.
Lemma per_coordinate_length {A} (f : double * double -> double -> double -> A) boxes p q : length p = length boxes -> length q = length boxes -> length (per_coordinate f boxes p q) = length boxes.
Proof. intros L1 L2. unfold per_coordinate. rewrite map_length, !combine_length. lia. Qed.
Lemma nth_place p i : nth i (place p) 0 = val (nth i p (B754_zero false)).
Proof. unfold place. change 0 with (val (B754_zero false)) at 1. apply map_nth. Qed.
Lemma nth_good boxes p i : good_position boxes p -> (i < length boxes)%nat -> good_coord (nth i boxes nob) (nth i p (B754_zero false)).
Proof. intros H. revert i. induction H as [|b x boxes p Hx H IH]; intros [|i] Hi; cbn in *; try lia; auto. apply IH. lia. Qed.
Lemma forall2_len {A B} (P : A -> B -> Prop) l m : Forall2 P l m -> length l = length m.
Proof. induction 1; cbn; auto. Qed.
Lemma sequence_ok {A B} (f : A -> res B) g l : (forall x, In x l -> f x = Ok (g x)) -> sequence (map f l) = Ok (map g l).
Proof. induction l as [|x l IH]; intros H; auto. cbn [map sequence]. rewrite (H x (or_introl eq_refl)). cbn [bind]. rewrite IH by (intros; apply H; right; auto). reflexivity. Qed.

Lemma nth_map2 {X Y W} (f : X -> Y -> W) : forall l m i x y w, (i < length l)%nat -> length l = length m -> nth i (map2 f l m) w = f (nth i l x) (nth i m y).
Proof. induction l as [|u l IH]; intros [|v m] [|i] x y w Hi L; cbn in *; try lia; auto. apply IH; lia. Qed.
Lemma forall_nth (P : double -> Prop) (l : list double) : (forall i, (i < length l)%nat -> P (nth i l (B754_zero false))) -> Forall P l.
Proof. intros H. apply Forall_forall. intros x Hx. destruct (In_nth l x (B754_zero false) Hx) as (i & Hi & <-). auto. Qed.
Lemma forall2_nth (P : double * double -> double -> Prop) : forall bs l, length l = length bs -> (forall i, (i < length bs)%nat -> P (nth i bs nob) (nth i l (B754_zero false))) -> Forall2 P bs l.
Proof. induction bs as [|b' bs IH]; intros [|x l] L H; cbn in L; try discriminate; constructor; [apply (H 0%nat); cbn; lia|]. apply IH; [lia|]. intros i Hi. apply (H (Datatypes.S i)). cbn. lia. Qed.

Section Average.
  Variables (env : fenvironment) (per : bool) (boxes : list (double * double)) (M r : R) (c : list R) (ps : list (list double)).
  Hypothesis Gb : Forall good_box boxes.
  Hypothesis Lb : (length boxes <= 64)%nat.
  Hypothesis Col : forall l, summed l (fe_column_sum env l).
  Hypothesis HM : M <= pw 20.
  Hypothesis Hb : Forall (fun b => Rabs (val (fst b)) <= pw 20 /\ Rabs (val (snd b)) <= pw 20) boxes.
  Hypothesis Hp : Forall (Forall (fun x => Rabs (val x) <= M)) ps.
  Hypothesis Hn : (length ps <= 2 ^ 20)%nat.
  Hypothesis Ne : ps <> [].
  Hypothesis Gp : Forall (good_position boxes) ps.
  Hypothesis Lc : length c = length boxes.
  Hypothesis R0 : 0 <= r.
  Hypothesis Rs : per = true -> forall i, (i < length boxes)%nat -> 2 * r <= sz boxes i / 2 - pw (-32) * sz boxes i.
  Hypothesis Near : forall p, In p ps -> within per boxes (place p) c r.
  Notation z0 := (B754_zero false).

  Lemma len_p p : In p ps -> length p = length boxes.
  Proof. intros I. rewrite Forall_forall in Gp. symmetry. exact (forall2_len _ _ _ (Gp p I)). Qed.
  Lemma fin_p p : In p ps -> Forall (fun x => fin x /\ Rabs (val x) <= M) p.
  Proof. intros I. pose proof Gp as G. pose proof Hp as H. rewrite Forall_forall in G, H. specialize (G p I). specialize (H p I). clear - G H. induction G as [|b y bs l (Fy & _) G IH]; constructor; [split; auto; apply (Forall_inv H)|]. apply IH. apply (Forall_inv_tail H). Qed.
  Lemma moderate_pair p q : In p ps -> In q ps -> Forall (fun x => moderate (fst (fst x)) (snd (fst x)) (snd x)) (combine (combine boxes p) q).
  Proof. intros Ip Iq. apply moderate_all; auto using len_p.
    - apply Forall_forall. intros b Ib. pose proof Gb as G. pose proof Hb as H. rewrite Forall_forall in G, H. destruct (G b Ib) as (F1 & F2 & L & _). destruct (H b Ib) as (B1 & B2). repeat split; auto.
    - eapply Forall_impl; [|apply (fin_p p Ip)]. intros x (F & B). split; auto. eapply Rle_trans; [exact B|exact HM].
    - eapply Forall_impl; [|apply (fin_p q Iq)]. intros x (F & B). split; auto. eapply Rle_trans; [exact B|exact HM]. Qed.
  Lemma fin_nth p i : In p ps -> (i < length boxes)%nat -> fin (nth i p z0) /\ Rabs (val (nth i p z0)) <= M /\ good_coord (nth i boxes nob) (nth i p z0).
  Proof. intros I Hi. pose proof (fin_p p I) as F. rewrite Forall_forall in F. destruct (F (nth i p z0)) as (F1 & F2); [apply nth_In; rewrite (len_p p I); auto|]. split; auto. split; auto. apply nth_good; auto. pose proof Gp as G. rewrite Forall_forall in G. auto. Qed.

  Section Coordinate.
    Variable offs : list (list double * (nat -> Z)).
    Hypothesis Ef : map fst offs = ps.
    Hypothesis Ho : forall q, In q offs -> (per = false -> forall i, snd q i = 0%Z) /\ rs (length boxes) (fun i => off boxes (place (fst q)) c (snd q) i ^ 2) <= r ^ 2.
    Let N := length ps.
    Let a (q : list double * (nat -> Z)) (i : nat) : R := off boxes (place (fst q)) c (snd q) i.
    Variable i : nat.
    Hypothesis Hi : (i < length boxes)%nat.
    Let b := nth i boxes nob.
    Let s := sz boxes i.
    Lemma good_b : good_box b.
    Proof. pose proof Gb as G. rewrite Forall_forall in G. apply G. apply nth_In. auto. Qed.
    Lemma s_range : pw (-400) <= s <= pw 21.
    Proof. pose proof good_b as G. split; [apply G|]. pose proof Hb as H. rewrite Forall_forall in H. destruct (H b ltac:(apply nth_In; auto)) as (B1 & B2). destruct G as (F1 & F2 & L & _). 
      apply (size_small (fst b) (snd b)); auto. Qed.
    Lemma a_small q : In q offs -> Rabs (a q i) <= r.
    Proof. intros Iq. destruct (Ho q Iq) as (_ & H). pose proof (rs_bound (length boxes) (fun i => a q i ^ 2) i Hi ltac:(intros; apply pow2_ge_0)) as B. cbn beta in B. fold (a q) in H.
      assert (X : a q i ^ 2 <= r ^ 2) by (eapply Rle_trans; [exact B|exact H]). apply Rabs_le. split; nra. Qed.
    Lemma a_val q : In q offs -> val (nth i (fst q) z0) = a q i + nth i c 0 + IZR (snd q i) * s.
    Proof. intros _. unfold a, off. rewrite nth_place. fold s. ring. Qed.
    Lemma in_ps q : In q offs -> In (fst q) ps.
    Proof. intros H. rewrite <- Ef. apply in_map. exact H. Qed.
    Let mean : R := rsum (map (fun q => a q i) offs) / INR (length offs).
    Lemma offs_ne : offs <> [].
    Proof. intros E. rewrite E in Ef. cbn in Ef. congruence. Qed.
    Lemma len_offs : length offs = N.
    Proof. unfold N. rewrite <- Ef, map_length. reflexivity. Qed.
    Lemma mean_small : Rabs mean <= r.
    Proof. pose proof (mean_close offs (fun q => a q i) (fun _ => 0) r offs_ne ltac:(intros q Hq; rewrite Rminus_0_r; apply a_small; auto)) as X. fold mean in X. replace (rsum (map (fun _ => 0) offs) / INR (length offs)) with 0 in X; [rewrite Rminus_0_r in X; exact X|].
      assert (E : rsum (map (fun _ : list double * (nat -> Z) => 0) offs) = 0) by (clear; unfold rsum; induction offs as [|q l IH]; [reflexivity|]; cbn [map fold_right]; rewrite IH; ring). rewrite E. unfold Rdiv. ring. Qed.
    Let err : R := (pw (-40) + INR N * pw (-51)) * (s + M).
    Lemma count : (1 <= N)%nat /\ (N <= 2 ^ 21)%nat.
    Proof. unfold N. split; [destruct ps; [congruence|cbn; lia]|]. eapply Nat.le_trans; [exact Hn|]. apply Nat.pow_le_mono_r; lia. Qed.
    Lemma M_nonneg : 0 <= M.
    Proof. assert (X : exists p, In p ps) by (destruct ps as [|p l]; [congruence|exists p; left; auto]). destruct X as (p & Ip). destruct (fin_nth p i Ip Hi) as (_ & B & _). pose proof (Rabs_pos (val (nth i p z0))). lra. Qed.

    (** not periodic *)
    Lemma open_coord : per = false -> let v := fdiv (fe_column_sum env (map (fun p => nth i p z0) ps)) (of_int (Z.of_nat N)) in
      fin v /\ Rabs (val v - nth i c 0 - mean) <= err.
    Proof. intros E v. pose proof s_range as Sr. pose proof M_nonneg as M0. set (col := map (fun p => nth i p z0) ps). assert (Lcol : @length double col = N) by apply map_length.
      assert (Fc : Forall (okc (s + M)) col).
      { apply Forall_forall. intros x Hx. apply in_map_iff in Hx as (p & <- & Ip). destruct (fin_nth p i Ip Hi) as (Fx & Bx & _). split; auto. eapply Rle_trans; [exact Bx|]. pose proof (pw_pos (-400)). lra. }
      destruct count as (C1 & C2). assert (HsM : pw (-400) <= s + M <= pw 400).
      { split; [lra|]. assert (pw 20 <= pw 21) by (apply pw_le; lia). assert (pw 21 + pw 21 <= pw 400). { replace (pw 21 + pw 21) with (pw 22) by (change 22%Z with (21 + 1)%Z; rewrite pow_succ; ring). apply pw_le. lia. } lra. }
      assert (Nc : col <> []) by (unfold col; destruct ps; [congruence|discriminate]). assert (Lc2 : (@length double col <= 2 ^ 21)%nat) by (rewrite Lcol; exact C2).
      destruct (mean_bound (s + M) HsM col (fe_column_sum env col) (Col col) Fc Nc Lc2) as (Fv & Ev & _).
      rewrite Lcol in Fv, Ev. fold v in Fv, Ev. split; [exact Fv|].
      assert (X : rsum (map val col) / INR N = mean + nth i c 0).
      { replace (mean + nth i c 0) with (rsum (map (fun q => a q i - - nth i c 0) offs) / INR (length offs)) by (rewrite (mean_shift offs (fun q => a q i) (- nth i c 0) offs_ne); unfold mean; ring). unfold col. rewrite <- len_offs, <- Ef, !map_map. f_equal. f_equal. apply map_ext_in. intros q Hq. etransitivity; [exact (a_val q Hq)|]. destruct (Ho q Hq) as (Z & _). rewrite (Z E). ring. }
      rewrite X in Ev. replace (val v - nth i c 0 - mean) with (val v - (mean + nth i c 0)) by ring. eapply Rle_trans; [exact Ev|]. unfold err. pose proof (pw_pos (-40)). pose proof (pw_pos (-400)). rewrite Rmult_plus_distr_r. assert (0 <= pw (-40) * (s + M)) by (apply Rmult_le_pos; lra). lra. Qed.

    (** periodic *)
    Lemma no_wrap (o p : list double) ko kp : per = true -> In (o, ko) offs -> In (p, kp) offs -> let v := fconnect b (nth i o z0) (nth i p z0) in
      fin v /\ Rabs (val v) <= s /\ Rabs (val v - (a (p, kp) i - a (o, ko) i)) <= 5 / 4 * (pw (-41) * s).
    Proof. intros E Io Ip v. pose proof good_b as G. destruct (fin_nth o i (in_ps _ Io) Hi) as (_ & _ & Go). destruct (fin_nth p i (in_ps _ Ip) Hi) as (_ & _ & Gq). destruct (small_parts b G) as (Tp & Ts & _). destruct (connect_accurate b _ _ G Go Gq) as (Fv & Bv & j & Ev). cbv zeta in *.
      change (val (fsize (fst b) (snd b))) with s in *. fold v in Fv, Bv, Ev. set (t := pw (-41) * s) in *. split; auto. split; [lra|].
      pose proof (a_val _ Io) as Vo. pose proof (a_val _ Ip) as Vp. cbn [fst snd] in Vo, Vp. pose proof (a_small _ Io) as Ao. pose proof (a_small _ Ip) as Ap. pose proof (Rs E i Hi) as R2. fold s in R2.
      assert (T32 : pw (-32) * s = 512 * t) by (unfold t; change 512 with (pw 9); rewrite <- Rmult_assoc, pw_mul; reflexivity). rewrite T32 in R2.
      rewrite Vo, Vp in Ev. set (J := (kp i - ko i + j)%Z). assert (EJ : Rabs (val v - (a (p, kp) i - a (o, ko) i + IZR J * s)) <= 5 / 4 * t). { unfold J. rewrite plus_IZR, minus_IZR. match type of Ev with Rabs ?x <= _ => match goal with |- Rabs ?y <= _ => replace y with x by ring end end. exact Ev. }
      assert (J0 : J = 0%Z). { assert (Sp : 0 < s) by lra. assert (B : -1 < IZR J < 1). { split; apply (Rmult_lt_reg_r s); auto; rewrite abs_le in *; lra. } destruct B as (B1 & B2). apply lt_IZR in B1. apply lt_IZR in B2. lia. }
      rewrite J0 in EJ. rewrite Rmult_0_l, Rplus_0_r in EJ. exact EJ. Qed.
    Lemma periodic_coord o ko rest : per = true -> offs = (o, ko) :: rest ->
      let d := fdiv (fe_column_sum env (map (fun p => fconnect b (nth i o z0) (nth i p z0)) ps)) (of_int (Z.of_nat N)) in
      let v := np_mod (fadd (nth i o z0) d) (fsize (fst b) (snd b)) in
      fin v /\ 0 <= val v <= s /\ exists K, Rabs (val v - nth i c 0 - IZR K * s - mean) <= err.
    Proof. intros E Eo d v. assert (Io : In (o, ko) offs) by (rewrite Eo; left; auto). pose proof good_b as G. pose proof s_range as Sr. pose proof M_nonneg as M0. destruct (small_parts b G) as (Tp & Ts & T53 & T1). cbv zeta in *. change (val (fsize (fst b) (snd b))) with s in *. set (t := pw (-41) * s) in *.
      set (col := map (fun p => fconnect b (nth i o z0) (nth i p z0)) ps) in *. assert (Lcol : @length double col = N) by apply map_length.
      assert (Fc : Forall (okc s) col).
      { apply Forall_forall. intros x Hx. apply in_map_iff in Hx as (p & <- & Ip). rewrite <- Ef in Ip. apply in_map_iff in Ip as ((p' & kp) & E' & Ip). cbn in E'. subst p'. destruct (no_wrap o p ko kp E Io Ip) as (F & B & _). split; auto. }
      destruct count as (C1 & C2). assert (Hs : pw (-400) <= s <= pw 400) by (split; [apply Sr|]; eapply Rle_trans; [apply Sr|]; apply pw_le; lia).
      assert (Nc : col <> []) by (unfold col; destruct ps; [congruence|discriminate]). assert (Lc2 : (@length double col <= 2 ^ 21)%nat) by (rewrite Lcol; exact C2).
      destruct (mean_bound s Hs col (fe_column_sum env col) (Col col) Fc Nc Lc2) as (Fd & Ed & Bd).
      rewrite Lcol in Fd, Ed, Bd. fold d in Fd, Ed.
      assert (X : Rabs (rsum (map val col) / INR N - (mean - a (o, ko) i)) <= 5 / 4 * t).
      { unfold mean. rewrite <- (mean_shift offs (fun q => a q i) (a (o, ko) i) offs_ne). unfold col. rewrite <- len_offs, <- Ef, !map_map. apply (mean_close offs); [exact offs_ne|]. intros (p & kp) Hq. cbn [fst]. apply (no_wrap o p ko kp E Io Hq). }
      destruct (fin_nth o i (in_ps _ Io) Hi) as (Fo & Bo & _). cbn [fst] in *. 
      assert (N51 : INR N * pw (-51) * s <= / 64 * s). { assert (NB : 0 <= INR N <= 2097152) by (apply big_count; exact C2). apply Rmult_le_compat_r; [lra|]. apply Rle_trans with (2097152 * pw (-51)); [apply Rmult_le_compat_r; [left; apply pw_pos|lra]|]. change 2097152 with (pw 21). rewrite pw_mul. change (/ 64) with (pw (-6)). apply pw_le. lia. }
      set (n51 := INR N * pw (-51) * s) in *. assert (Bdv : Rabs (val d) <= 2 * s) by (rewrite abs_le in *; lra).
      assert (Bs : Rabs (val (nth i o z0) + val d) <= M + 2 * s) by (eapply Rle_trans; [apply Rabs_triang|]; lra).
      assert (By : Rabs (val (nth i o z0) + val d) <= pw 400). { eapply Rle_trans; [exact Bs|]. apply Rle_trans with (pw 23); [|apply pw_le; lia]. assert (pw 23 = 4 * pw 21) by (change 4 with (pw 2); rewrite pw_mul; reflexivity). assert (pw 20 <= pw 21) by (apply pw_le; lia). pose proof (pw_pos 21). lra. }
      destruct (fadd_val _ d 400 ltac:(lia) Fo Fd By) as (Fa & Va). pose proof (rnd_rel (val (nth i o z0) + val d)) as Er. rewrite <- Va in Er.
      destruct (mod_congr_rel b _ G Fa) as (Fv & Rv & j & e & Ev & Be). cbv zeta in *. change (val (fsize (fst b) (snd b))) with s in *. fold v in Fv, Rv, Ev. split; auto. split; auto.
      exists (j + ko i)%Z. rewrite plus_IZR. pose proof (a_val _ Io) as Vo. cbn [fst snd] in Vo.
      assert (U1 : pw (-53) * Rabs (val (nth i o z0) + val d) <= pw (-53) * M + 2 * (pw (-53) * s)) by (replace (pw (-53) * M + 2 * (pw (-53) * s)) with (pw (-53) * (M + 2 * s)) by ring; apply Rmult_le_compat_l; [left; apply pw_pos|exact Bs]).
      assert (UM : pw (-53) * M <= pw (-40) * M) by (apply Rmult_le_compat_r; [exact M0|apply pw_le; lia]). assert (E40 : pw (-40) * s = 2 * t) by (unfold t; change 2 with (pw 1); rewrite <- Rmult_assoc, pw_mul; reflexivity).
      assert (Ee : 2 * t + n51 + pw (-53) * M <= err). { unfold err. rewrite Rmult_plus_distr_l, !Rmult_plus_distr_r. fold n51. assert (0 <= INR N * pw (-51) * M) by (apply Rmult_le_pos; [apply Rmult_le_pos; [apply pos_INR|left; apply pw_pos]|exact M0]). lra. }
      eapply Rle_trans; [|exact Ee]. set (S0 := rsum (map val col) / INR N) in *. set (xo := val (nth i o z0)) in *. set (w := val (fadd (nth i o z0) d)) in *. rewrite Ev. rewrite abs_le in *. lra. Qed.
  End Coordinate.

  (** all coordinates *)
  Lemma all_coords offs (A : list double) : map fst offs = ps -> (forall q, In q offs -> (per = false -> forall i, snd q i = 0%Z) /\ rs (length boxes) (fun i => off boxes (place (fst q)) c (snd q) i ^ 2) <= r ^ 2) ->
    length A = length boxes ->
    (forall i, (i < length boxes)%nat -> exists K, (per = false -> K = 0%Z) /\ Rabs (val (nth i A z0) - nth i c 0 - IZR K * sz boxes i - rsum (map (fun q => off boxes (place (fst q)) c (snd q) i) offs) / INR (length offs)) <= (pw (-40) + INR (length ps) * pw (-51)) * (sz boxes i + M)) ->
    within per boxes (place A) c (r + place_error boxes M (length ps)).
  Proof. intros Ef Ho LA H. destruct (choose_nat _ _ H) as (k & Hk). assert (LP : length (place A) = length boxes) by (unfold place; rewrite map_length; exact LA). apply within_off; auto.
    set (k' := fun i => if per then k i else 0%Z). exists k'. split; [intros E i; unfold k'; rewrite E; reflexivity|].
    set (mean := fun i => rsum (map (fun q => off boxes (place (fst q)) c (snd q) i) offs) / INR (length offs)). set (err := fun i => (pw (-40) + INR (length ps) * pw (-51)) * (sz boxes i + M)).
    eapply Rle_trans; [apply (rs_triangle _ _ mean err)|].
    - intros i Hi. destruct (Hk i Hi) as (Z & B). unfold off, k'. rewrite nth_place. replace (if per then k i else 0%Z) with (k i); [exact B|]. destruct per; auto.
    - assert (Ne' : offs <> []) by (intros E; apply Ne; rewrite <- Ef, E; reflexivity).
      assert (B : rs (length boxes) (fun i => mean i ^ 2) <= r ^ 2) by (apply (mean_length (length boxes) offs (fun q i => off boxes (place (fst q)) c (snd q) i) (r ^ 2) Ne'); intros q Hq; apply Ho; auto).
      assert (Sq : sqrt (rs (length boxes) (fun i => mean i ^ 2)) <= r) by (rewrite <- (sqrt_pow2 r) by exact R0; apply sqrt_le_1_alt; exact B).
      assert (Es : rs (length boxes) err = place_error boxes M (length ps)) by (unfold err, place_error; rewrite rs_scal, rs_plus, rs_const, total_rs; reflexivity). rewrite Es.
      assert (P0 : 0 <= place_error boxes M (length ps)).
      { rewrite <- Es. apply rs_nonneg. intros i Hi. destruct (Hk i Hi) as (_ & Bk). eapply Rle_trans; [apply Rabs_pos|exact Bk]. }
      pose proof (sqrt_pos (rs (length boxes) (fun i => mean i ^ 2))) as S0. apply pow_incr. lra. Qed.
  Lemma get_offs : exists offs : list (list double * (nat -> Z)), map fst offs = ps /\ (forall q, In q offs -> (per = false -> forall i, snd q i = 0%Z) /\ rs (length boxes) (fun i => off boxes (place (fst q)) c (snd q) i ^ 2) <= r ^ 2).
  Proof. apply (choose_list (fun p k => (per = false -> forall i, k i = 0%Z) /\ rs (length boxes) (fun i => off boxes (place p) c k i ^ 2) <= r ^ 2) ps). intros p Ip. apply within_off; auto. unfold place. rewrite map_length. apply len_p; auto. Qed.
  Lemma nth_column (l : list fpoint) i : (i < length boxes)%nat -> nth i (fcolumn_avg env boxes l) z0 = fdiv (fe_column_sum env (map (fun p => nth i p z0) l)) (of_int (Z.of_nat (length l))).
  Proof. intros Hi. unfold fcolumn_avg. set (f := fun i => fdiv (fe_column_sum env (map (fun p => nth i p z0) l)) (of_int (Z.of_nat (length l)))). rewrite (nth_indep _ z0 (f 0%nat)) by (rewrite map_length, seq_length; exact Hi). rewrite (map_nth f), seq_nth by exact Hi. reflexivity. Qed.
  Lemma column_length l : length (fcolumn_avg env boxes l) = length boxes.
  Proof. unfold fcolumn_avg. rewrite map_length, seq_length. reflexivity. Qed.
  Lemma average_accurate : exists A, faverage env per boxes ps = Ok A /\ length A = length boxes /\ Forall (fun x => fin x) A /\
    within per boxes (place A) c (r + place_error boxes M (length ps)) /\ (per = true -> Forall2 (fun b x => 0 <= val x <= fbox_size b) boxes A).
  Proof. destruct get_offs as (offs & Ef & Ho). assert (Cs : per = true \/ per = false) by (destruct per; auto). destruct Cs as [E|E].
    - destruct offs as [|(o & ko) rest] eqn:Eo; [exfalso; apply Ne; symmetry; exact Ef|]. rewrite <- Eo in *. assert (Eps : ps = o :: map fst rest) by (rewrite <- Ef, Eo; reflexivity).
      assert (Iop : In o ps) by (rewrite Eps; left; auto). set (ds := map (fun p => per_coordinate fconnect boxes o p) ps).
      set (A := map2 (fun b x => np_mod x (fsize (fst b) (snd b))) boxes (map2 fadd o (fcolumn_avg env boxes ds))). assert (EA : faverage env per boxes ps = Ok A).
      { unfold faverage, A, ds. clear - E Eps Lb Iop Gb Hb Hp Gp HM. rewrite E. assert (Q : sequence (map (fun p => fvector per boxes o p) ps) = Ok (map (fun p => per_coordinate fconnect boxes o p) ps)).
        - apply sequence_ok. intros p Ip. unfold fvector. rewrite E. apply assertion_holds; auto using len_p, moderate_pair.
        - rewrite E in Q. rewrite Eps in Q |- *. rewrite Q. reflexivity. }
      assert (Lo : length o = length boxes) by (apply len_p; exact Iop). assert (Lds : length ds = length ps) by (unfold ds; apply map_length).
      assert (L1 : length (map2 fadd o (fcolumn_avg env boxes ds)) = length boxes) by (rewrite map2_length by (rewrite column_length; exact Lo); exact Lo).
      assert (LA : length A = length boxes) by (unfold A; rewrite map2_length by (rewrite L1; reflexivity); reflexivity).
      assert (V : forall i, (i < length boxes)%nat -> fin (nth i A z0) /\ 0 <= val (nth i A z0) <= sz boxes i /\ exists K, Rabs (val (nth i A z0) - nth i c 0 - IZR K * sz boxes i - rsum (map (fun q => off boxes (place (fst q)) c (snd q) i) offs) / INR (length offs)) <= (pw (-40) + INR (length ps) * pw (-51)) * (sz boxes i + M)).
      { intros i Hi. assert (EN : nth i A z0 = np_mod (fadd (nth i o z0) (fdiv (fe_column_sum env (map (fun p => fconnect (nth i boxes nob) (nth i o z0) (nth i p z0)) ps)) (of_int (Z.of_nat (length ps))))) (fsize (fst (nth i boxes nob)) (snd (nth i boxes nob)))).
        { unfold A. etransitivity; [exact (nth_map2 (fun (b : fbox) x => np_mod x (fsize (fst b) (snd b))) boxes _ i nob z0 z0 Hi (eq_sym L1))|]. f_equal. etransitivity; [refine (nth_map2 fadd o _ i z0 z0 z0 _ _); [rewrite Lo; exact Hi|rewrite column_length; exact Lo]|]. f_equal. rewrite nth_column, Lds by auto. unfold ds. rewrite map_map. do 2 f_equal. apply map_ext_in. intros p Ip. apply nth_per_coordinate; auto. apply len_p; auto. }
        rewrite EN. exact (periodic_coord offs Ef Ho i Hi o ko rest E Eo). }
      exists A. split; [exact EA|]. split; [exact LA|]. split; [apply forall_nth; intros i Hi; apply V; rewrite <- LA; exact Hi|]. split.
      + apply (all_coords offs); auto. intros i Hi. destruct (V i Hi) as (_ & _ & K & B). exists K. split; [intros X; rewrite E in X; discriminate|exact B].
      + intros _. apply forall2_nth; auto. intros i Hi. apply (V i Hi).
    - set (A := fcolumn_avg env boxes ps). assert (EA : faverage env per boxes ps = Ok A) by (unfold faverage, A; rewrite E; reflexivity).
      assert (V : forall i, (i < length boxes)%nat -> fin (nth i A z0) /\ Rabs (val (nth i A z0) - nth i c 0 - rsum (map (fun q => off boxes (place (fst q)) c (snd q) i) offs) / INR (length offs)) <= (pw (-40) + INR (length ps) * pw (-51)) * (sz boxes i + M)).
      { intros i Hi. unfold A. rewrite nth_column by auto. exact (open_coord offs Ef Ho i Hi E). }
      exists A. split; [exact EA|]. split; [apply column_length|]. split; [apply forall_nth; intros i Hi; apply V; rewrite <- (column_length ps); exact Hi|]. split; [|intros X; rewrite E in X; discriminate].
      apply (all_coords offs); auto; [apply column_length|]. intros i Hi. destruct (V i Hi) as (_ & B). exists 0%Z. split; auto. rewrite Rmult_0_l, Rminus_0_r. exact B. Qed.
End Average.
