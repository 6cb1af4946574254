(** Lemmas about [CoordSys]. *)
From Verif Require Import Base BaseFacts CoordSys SpecGeom.
Open Scope Qc_scope.

#[global] Arguments normalize1 : simpl never.
#[global] Arguments delta1 : simpl never.
#[global] Arguments conn1 : simpl never.
#[global] Arguments get_frac1 : simpl never.
#[global] Arguments get_pos1 : simpl never.
#[global] Arguments size1 : simpl never.

Definition wfl (ls : list (Qc * Qc)) : Prop := Forall (fun l => fst l < snd l) ls.

Lemma size1_pos l : fst l < snd l -> 0 < size1 l.
Proof. unfold size1. intros. qlra. Qed.

(** ** shifted *)
Lemma shifted_length ls ks p q : shifted ls ks p q ->
  length ks = length ls /\ length p = length ls /\ length q = length ls.
Proof. induction 1; simpl; intuition. Qed.

Lemma shifted_exists ls ks p : length ks = length ls -> length p = length ls ->
  exists q, shifted ls ks p q.
Proof. revert ks p. induction ls as [|[lo hi] ls IH]; destruct ks as [|k ks], p as [|x p]; simpl; intros; try lia.
  - exists []. constructor.
  - destruct (IH ks p) as [q Hq]; try lia. eexists. constructor. exact Hq. Qed.

Lemma shifted_refl ls p : length p = length ls -> shifted ls (repeat 0%Z (length ls)) p p.
Proof. revert p. induction ls as [|[lo hi] ls IH]; destruct p as [|x p]; simpl; intros; try lia.
  - constructor.
  - replace (x :: p) with (x + qc 0 * (hi - lo) :: p) at 2.
    + constructor. apply IH. lia.
    + f_equal. rewrite qc_0. ring. Qed.

Lemma shifted_sym ls ks p q : shifted ls ks p q -> shifted ls (map Z.opp ks) q p.
Proof. induction 1; simpl; [constructor|].
  replace (x :: p) with ((x + qc k * (hi - lo)) + qc (- k) * (hi - lo) :: p).
  - constructor. auto.
  - f_equal. rewrite qc_opp. ring. Qed.

Lemma shifted_trans ls ks p q ks' r : shifted ls ks p q -> shifted ls ks' q r ->
  shifted ls (map2 Z.add ks ks') p r.
Proof. intros H. revert ks' r. induction H; intros ks' r H'; inversion H'; subst; simpl; [constructor|].
  replace (x + qc k * (hi - lo) + qc k0 * (hi - lo)) with (x + qc (k + k0) * (hi - lo)).
  - constructor. auto.
  - rewrite qc_add. ring. Qed.

Lemma lattice_eq_refl cs p : is_pos cs p -> lattice_eq cs p p.
Proof. intros. eexists. apply shifted_refl. assumption. Qed.
Lemma lattice_eq_sym cs p q : lattice_eq cs p q -> lattice_eq cs q p.
Proof. intros [ks H]. eexists. eapply shifted_sym, H. Qed.
Lemma lattice_eq_trans cs p q r : lattice_eq cs p q -> lattice_eq cs q r -> lattice_eq cs p r.
Proof. intros [ks H] [ks' H']. eexists. eapply shifted_trans; eauto. Qed.

(** ** normalize *)
Lemma normalize1_shift lo hi x :
  exists k, normalize1 true (lo, hi) x = x + qc k * (hi - lo).
Proof. unfold normalize1, size1. cbn [fst snd].
  exists (- qfloor ((x - lo) / (hi - lo)))%Z. rewrite pymod_shift, qc_opp. ring. Qed.
Lemma normalize1_range lo hi x : lo < hi ->
  lo <= normalize1 true (lo, hi) x /\ normalize1 true (lo, hi) x < hi.
Proof. intros Hl. assert (Hs : 0 < hi - lo) by qlra.
  unfold normalize1, size1. cbn [fst snd]. destruct (pymod_range (x - lo) Hs).
  set (m := pymod _ _) in *. split; qlra. Qed.
Lemma normalize1_unique lo hi x y k : lo < hi -> y = x + qc k * (hi - lo) -> lo <= y -> y < hi ->
  normalize1 true (lo, hi) x = y.
Proof. intros Hl E H1 H2. unfold normalize1, size1; cbn [fst snd].
  rewrite (@pymod_unique (x - lo) (hi - lo) (y - lo) (- k)%Z); [ring|qlra| |qlra|qlra].
  rewrite E, qc_opp. ring. Qed.
Lemma normalize1_shift_inv lo hi x k : lo < hi ->
  normalize1 true (lo, hi) (x + qc k * (hi - lo)) = normalize1 true (lo, hi) x.
Proof. intros. unfold normalize1, size1; cbn [fst snd].
  replace (x + qc k * (hi - lo) - lo) with ((x - lo) + qc k * (hi - lo)) by ring.
  rewrite pymod_add_mul; auto. qlra. Qed.
Lemma normalize1_idem per lo hi x : lo < hi ->
  normalize1 per (lo, hi) (normalize1 per (lo, hi) x) = normalize1 per (lo, hi) x.
Proof. intros. destruct per; [|reflexivity].
  destruct (normalize1_shift lo hi x) as [k E]. rewrite E at 1. apply normalize1_shift_inv. auto. Qed.

Lemma normalize_length cs p : is_pos cs p -> is_pos cs (normalize_position cs p).
Proof. unfold is_pos, normalize_position. intros. rewrite map2_length; auto. Qed.

Lemma normalize_nonper cs p : periodic cs = false -> is_pos cs p -> normalize_position cs p = p.
Proof. unfold is_pos, normalize_position. intros ->. generalize (limits cs) as ls. intros ls. revert p.
  induction ls; destruct p as [|x p]; simpl; intros; try lia; auto. f_equal. auto. Qed.
Lemma normalize_shifted cs p : periodic cs = true -> is_pos cs p ->
  lattice_eq cs p (normalize_position cs p).
Proof. unfold is_pos, normalize_position, lattice_eq. intros ->. generalize (limits cs) as ls. intros ls. revert p.
  induction ls as [|[lo hi] ls IH]; destruct p as [|x p]; simpl; intros; try lia.
  - exists []. constructor.
  - destruct (IH p) as [ks Hk]; [lia|]. destruct (normalize1_shift lo hi x) as [k ->].
    exists (k :: ks). constructor. auto. Qed.
Lemma normalize_in_box cs p : periodic cs = true -> wf_box cs -> is_pos cs p ->
  in_box cs (normalize_position cs p).
Proof. unfold is_pos, normalize_position, in_box, wf_box. intros ->. generalize (limits cs) as ls. intros ls. revert p.
  induction ls as [|[lo hi] ls IH]; destruct p as [|x p]; simpl; intros Hw Hl; try lia; constructor.
  - inversion Hw; subst. apply normalize1_range. auto.
  - inversion Hw; subst. apply IH; auto. Qed.
Lemma normalize_lattice_inv cs p q : periodic cs = true -> wf_box cs -> lattice_eq cs p q ->
  normalize_position cs p = normalize_position cs q.
Proof. unfold normalize_position, wf_box, lattice_eq. intros -> Hw [ks H]. revert Hw.
  generalize dependent (limits cs). intros ls H. induction H; simpl; intros Hw; auto.
  inversion Hw; subst. f_equal; auto. symmetry. apply normalize1_shift_inv. auto. Qed.
Lemma normalize_unique cs p q : periodic cs = true -> wf_box cs -> lattice_eq cs p q -> in_box cs q ->
  normalize_position cs p = q.
Proof. unfold normalize_position, wf_box, lattice_eq, in_box. intros -> Hw [ks H] Hb. revert Hw Hb.
  generalize dependent (limits cs). intros ls H. induction H; simpl; intros Hw Hb; auto.
  inversion Hw; subst. inversion Hb; subst. f_equal; auto.
  cbn [fst snd] in *. eapply normalize1_unique; [assumption|reflexivity|tauto|tauto]. Qed.
Lemma normalize_idem cs p : wf_box cs -> is_pos cs p ->
  normalize_position cs (normalize_position cs p) = normalize_position cs p.
Proof. unfold is_pos, normalize_position, wf_box. generalize (limits cs) as ls. intros ls. revert p.
  induction ls as [|[lo hi] ls IH]; destruct p as [|x p]; simpl; intros Hw Hl; try lia; auto.
  inversion Hw; subst. f_equal; auto. apply normalize1_idem. auto. Qed.

(** ** frac / pos *)
Lemma frac1_range lo hi x : 0 <= get_frac1 true (lo, hi) x /\ get_frac1 true (lo, hi) x < 1.
Proof. unfold get_frac1. apply pymod_range. qlra. Qed.
Lemma get_pos_frac1 per lo hi x : lo < hi ->
  get_pos1 (lo, hi) (get_frac1 per (lo, hi) x) = normalize1 per (lo, hi) x.
Proof. intros Hl. assert (Hs : 0 < hi - lo) by qlra. destruct per.
  - symmetry. destruct (frac1_range lo hi x) as [F1 F2].
    assert (E : exists k, get_pos1 (lo, hi) (get_frac1 true (lo, hi) x) = x + qc k * (hi - lo)).
    { unfold get_pos1, get_frac1, size1; cbn [fst snd]. rewrite pymod_shift.
      set (z := qfloor _). exists (- z)%Z. rewrite qc_opp. field. auto. }
    destruct E as [k E]. apply normalize1_unique with k; auto;
      unfold get_pos1, size1; cbn [fst snd];
      set (f := get_frac1 _ _ _) in *; set (s := hi - lo) in *.
    + assert (0 <= f * s) by qnra. qlra.
    + assert (f * s < s) by qnra. assert (s + lo = hi) by (unfold s; ring). qlra.
  - unfold get_pos1, get_frac1, normalize1, size1; cbn [fst snd]. field. auto. Qed.
Lemma get_frac_pos1 per lo hi f : lo < hi ->
  get_frac1 per (lo, hi) (get_pos1 (lo, hi) f) = if per then pymod f 1 else f.
Proof. intros Hl. assert (Hs : 0 < hi - lo) by qlra.
  unfold get_frac1, get_pos1, size1; cbn [fst snd].
  replace ((f * (hi - lo) + lo - lo) / (hi - lo)) with f; [reflexivity|]. field. auto. Qed.

Lemma get_pos_frac cs p : wf_box cs -> is_pos cs p ->
  get_pos cs (get_frac cs p) = normalize_position cs p.
Proof. unfold is_pos, get_pos, get_frac, normalize_position, wf_box. generalize (limits cs) as ls. intros ls. revert p.
  induction ls as [|[lo hi] ls IH]; destruct p as [|x p]; simpl; intros Hw Hl; try lia; auto.
  inversion Hw; subst. f_equal; auto. apply get_pos_frac1. auto. Qed.
Lemma get_frac_pos cs f : wf_box cs -> is_pos cs f ->
  get_frac cs (get_pos cs f) = map (fun x => if periodic cs then pymod x 1 else x) f.
Proof. unfold is_pos, get_pos, get_frac, wf_box. generalize (limits cs) as ls. intros ls. revert f.
  induction ls as [|[lo hi] ls IH]; destruct f as [|x p]; simpl; intros Hw Hl; try lia; auto.
  inversion Hw; subst. f_equal; auto. apply get_frac_pos1. auto. Qed.
Lemma get_frac_range cs p : periodic cs = true -> is_pos cs p ->
  Forall (fun f => 0 <= f /\ f < 1) (get_frac cs p).
Proof. unfold is_pos, get_frac. intros ->. generalize (limits cs) as ls. intros ls. revert p.
  induction ls as [|[lo hi] ls IH]; destruct p as [|x p]; simpl; intros; try lia; constructor.
  - apply frac1_range.
  - apply IH. lia. Qed.
Lemma get_frac_length cs p : is_pos cs p -> is_pos cs (get_frac cs p).
Proof. unfold is_pos, get_frac. intros. rewrite map2_length; auto. Qed.

(** ** distance *)
(** one dimension of the minimum image: smallest |(q - p) + k s| *)
Lemma delta1_attained lo hi x y : lo < hi ->
  exists k, delta1 true (lo, hi) (x, y) * delta1 true (lo, hi) (x, y)
    = (y - (x + qc k * (hi - lo))) * (y - (x + qc k * (hi - lo))).
Proof. intros Hl. unfold delta1, size1; cbn [fst snd]. rewrite pymod_shift.
  set (z := qfloor _). set (s := hi - lo).
  destruct (qmin_cases (s - (y - x - qc z * s)) (y - x - qc z * s)) as [[-> _]|[-> _]].
  - exists (z + 1)%Z. rewrite qc_add, qc_1. ring.
  - exists z. ring. Qed.
Lemma delta1_minimal lo hi x y k : lo < hi ->
  delta1 true (lo, hi) (x, y) * delta1 true (lo, hi) (x, y)
    <= (y - (x + qc k * (hi - lo))) * (y - (x + qc k * (hi - lo))).
Proof. intros Hl. assert (Hs : 0 < hi - lo) by qlra.
  unfold delta1, size1; cbn [fst snd]. destruct (pymod_range (y - x) Hs) as [M1 M2].
  pose proof (pymod_shift (y - x) (hi - lo)) as E. set (m := pymod _ _) in *.
  set (z := qfloor _) in *. set (s := hi - lo) in *.
  replace (y - (x + qc k * s)) with (m + qc (z - k) * s) by (rewrite qc_sub; qlra).
  set (j := (z - k)%Z). clearbody j m s z. clear E.
  assert (J : (0 <= j)%Z \/ (j <= - 1)%Z) by lia. destruct J as [J|J].
  - apply qc_nonneg in J. assert (m <= m + qc j * s) by qnra.
    destruct (qmin_cases (s - m) m) as [[-> Hm]|[-> Hm]]; qnra.
  - apply qc_le in J. change (-1)%Z with (-(1))%Z in J. rewrite qc_opp, qc_1 in J.
    assert (m + qc j * s <= m - s) by qnra.
    destruct (qmin_cases (s - m) m) as [[-> Hm]|[-> Hm]]; qnra. Qed.

Lemma qsum_nonneg l : Forall (fun x => 0 <= x) l -> 0 <= qsum l.
Proof. induction 1; simpl; qlra. Qed.
Lemma sq_nonneg x : 0 <= x * x.
Proof. qnra. Qed.
Lemma dist_sq_nonneg cs p q : 0 <= dist_sq cs p q.
Proof. apply qsum_nonneg. apply Forall_forall. intros x Hx. apply in_map_iff in Hx as [d [<- _]].
  apply sq_nonneg. Qed.

Lemma dist_sq_minimal cs p q ks p' : periodic cs = true -> wf_box cs -> is_pos cs q ->
  shifted (limits cs) ks p p' -> dist_sq cs p q <= euclid_sq p' q.
Proof. unfold dist_sq, wf_box, is_pos. intros -> Hw Hq H. revert q Hw Hq.
  induction H as [|lo hi ls k ks x p p' H IH]; intros [|y q] Hw Hq; simpl in *; try lia; try qlra.
  inversion Hw as [|? ? Hl Hw']; subst. specialize (IH q Hw' ltac:(lia)).
  cbn [fst snd] in *. assert (HD := @delta1_minimal lo hi x y k Hl). qlra. Qed.
Lemma dist_sq_attained cs p q : periodic cs = true -> wf_box cs -> is_pos cs p -> is_pos cs q ->
  exists ks p', shifted (limits cs) ks p p' /\ dist_sq cs p q = euclid_sq p' q.
Proof. unfold dist_sq, wf_box, is_pos. intros ->. generalize (limits cs) as ls. intros ls. revert p q.
  induction ls as [|[lo hi] ls IH]; destruct p as [|x p], q as [|y q]; simpl; intros Hw Hp Hq; try lia.
  - exists [], []. split; [constructor|reflexivity].
  - inversion Hw; subst. destruct (IH p q) as (ks & p' & Hs & E); auto.
    destruct (@delta1_attained lo hi x y H1) as [k Ek].
    exists (k :: ks), (x + qc k * (hi - lo) :: p'). split; [constructor; auto|].
    simpl in *. rewrite Ek, E. reflexivity. Qed.
Lemma dist_sq_nonper cs p q : periodic cs = false -> is_pos cs p -> is_pos cs q ->
  dist_sq cs p q = euclid_sq p q.
Proof. unfold dist_sq, is_pos. intros ->. generalize (limits cs) as ls. intros ls. revert p q.
  induction ls as [|[lo hi] ls IH]; destruct p as [|x p], q as [|y q]; simpl; intros Hp Hq; try lia; auto.
  rewrite IH; auto. Qed.

Lemma euclid_sq_sym p q : euclid_sq p q = euclid_sq q p.
Proof. revert q. induction p as [|x p IH]; destruct q as [|y q]; simpl; auto. rewrite IH. ring. Qed.
Lemma euclid_sq_nonneg p q : 0 <= euclid_sq p q.
Proof. revert q. induction p as [|x p IH]; destruct q as [|y q]; simpl; try qlra.
  specialize (IH q). pose proof (sq_nonneg (y - x)). qlra. Qed.
Lemma euclid_sq_shift ls ks p q p' q' : shifted ls ks p p' -> shifted ls ks q q' ->
  euclid_sq p' q' = euclid_sq p q.
Proof. intros H. revert q q'. induction H; intros q1 q1' H'; inversion H'; subst; simpl; auto.
  rewrite (IHshifted _ _ H7). ring. Qed.
Lemma euclid_sq_zero p q : length p = length q -> (euclid_sq p q = 0 <-> p = q).
Proof. revert q. induction p as [|x p IH]; destruct q as [|y q]; simpl; intros Hl; try lia; [tauto|].
  specialize (IH q ltac:(lia)). pose proof (sq_nonneg (y - x)). pose proof (euclid_sq_nonneg p q).
  split; intros E.
  - assert (E1 : (y - x) * (y - x) = 0) by qlra. assert (E2 : euclid_sq p q = 0) by qlra.
    apply IH in E2. subst. f_equal. apply Qcmult_integral in E1. destruct E1; qlra.
  - inversion E; subst. assert (E2 : euclid_sq q q = 0) by (apply IH; auto). rewrite E2. ring. Qed.

Lemma dist_sq_sym cs p q : wf_box cs -> is_pos cs p -> is_pos cs q -> dist_sq cs p q = dist_sq cs q p.
Proof. intros Hw Hp Hq. destruct (periodic cs) eqn:Per.
  - assert (A : forall p q, is_pos cs p -> is_pos cs q -> dist_sq cs p q <= dist_sq cs q p).
    { clear p q Hp Hq. intros p q Hp Hq.
      destruct (dist_sq_attained cs q p) as (ks & q' & Hs & E); auto. rewrite E.
      destruct (@shifted_exists (limits cs) (map Z.opp ks) p) as [p' Hp'].
      { rewrite map_length. apply (shifted_length _ _ _ _ Hs). } { exact Hp. }
      assert (E2 : euclid_sq q' p = euclid_sq p' q).
      { rewrite (euclid_sq_sym p' q). symmetry. eapply euclid_sq_shift; [|exact Hp'].
        apply shifted_sym. exact Hs. }
      rewrite E2. eapply dist_sq_minimal; eauto. }
    apply Qcle_antisym; auto.
  - rewrite !dist_sq_nonper; auto. apply euclid_sq_sym. Qed.

Lemma lattice_eq_is_pos cs p q : lattice_eq cs p q -> is_pos cs p /\ is_pos cs q.
Proof. intros [ks H]. apply shifted_length in H. unfold is_pos. tauto. Qed.

Lemma dist_sq_lattice_l cs p p' q : periodic cs = true -> wf_box cs -> is_pos cs q ->
  lattice_eq cs p p' -> dist_sq cs p q = dist_sq cs p' q.
Proof. intros Per Hw Hq. 
  assert (A : forall p p', lattice_eq cs p p' -> dist_sq cs p q <= dist_sq cs p' q).
  { clear p p'. intros p p' Hpp. destruct (lattice_eq_is_pos _ _ _ Hpp).
    destruct (dist_sq_attained cs p' q) as (ks & r & Hs & E); auto. rewrite E.
    destruct Hpp as [ks' Hpp]. eapply dist_sq_minimal; eauto. eapply shifted_trans; eauto. }
  intros H. apply Qcle_antisym; apply A; auto. apply lattice_eq_sym. auto. Qed.
Lemma dist_sq_lattice_r cs p q q' : periodic cs = true -> wf_box cs -> is_pos cs p ->
  lattice_eq cs q q' -> dist_sq cs p q = dist_sq cs p q'.
Proof. intros Per Hw Hp H. destruct (lattice_eq_is_pos _ _ _ H).
  rewrite (dist_sq_sym cs p q), (dist_sq_sym cs p q'); auto. apply dist_sq_lattice_l; auto. Qed.
Lemma dist_sq_zero cs p q : periodic cs = true -> wf_box cs -> is_pos cs p -> is_pos cs q ->
  (dist_sq cs p q = 0 <-> lattice_eq cs p q).
Proof. intros Per Hw Hp Hq. split.
  - intros E. destruct (dist_sq_attained cs p q) as (ks & r & Hs & E2); auto.
    rewrite E2 in E. apply euclid_sq_zero in E.
    + subst. exists ks. auto.
    + apply shifted_length in Hs. unfold is_pos in Hq. lia.
  - intros [ks H]. apply Qcle_antisym; [|apply dist_sq_nonneg].
    replace 0 with (euclid_sq q q) by (apply euclid_sq_zero; auto).
    eapply dist_sq_minimal; eauto. Qed.
Lemma dist_sq_normalize cs p q : wf_box cs -> is_pos cs p -> is_pos cs q ->
  dist_sq cs (normalize_position cs p) (normalize_position cs q) = dist_sq cs p q.
Proof. intros Hw Hp Hq. destruct (periodic cs) eqn:Per.
  - rewrite <- (dist_sq_lattice_r cs _ q); auto using normalize_shifted, normalize_length.
    symmetry. apply dist_sq_lattice_l; auto using normalize_shifted.
  - rewrite !normalize_nonper; auto. Qed.

(** ** connecting vector *)
Lemma conn1_spec lo hi x y : lo < hi ->
  (exists k, conn1 (lo, hi) (x, y) + x = y + qc k * (hi - lo)) /\
  conn1 (lo, hi) (x, y) * conn1 (lo, hi) (x, y) = delta1 true (lo, hi) (x, y) * delta1 true (lo, hi) (x, y) /\
  qabs (conn1 (lo, hi) (x, y)) <= (hi - lo) * half.
Proof. intros Hl. assert (Hs : 0 < hi - lo) by qlra.
  unfold conn1, delta1, size1; cbn [fst snd]. destruct (pymod_range (y - x) Hs) as [M1 M2].
  pose proof (pymod_shift (y - x) (hi - lo)) as E. set (m := pymod _ _) in *.
  set (z := qfloor _) in *. set (s := hi - lo) in *.
  dltb (- (m - s)) m.
  - repeat split.
    + exists (- z - 1)%Z. rewrite E, qc_sub, qc_opp, qc_1. ring.
    + destruct (qmin_cases (s - m) m) as [[-> Hm]|[-> Hm]]; [ring|qnra].
    + apply qabs_le. split; qlra.
  - repeat split.
    + exists (- z)%Z. rewrite E, qc_opp. ring.
    + destruct (qmin_cases (s - m) m) as [[-> Hm]|[-> Hm]]; [|ring]. assert (s - m = m) by qlra. qnra.
    + apply qabs_le. split; qlra. Qed.

Lemma combine_nil_r' {A B} (l : list A) : combine l (@nil B) = [].
Proof. destruct l; reflexivity. Qed.

Definition conn (ls : list (Qc * Qc)) (p q : point) := map2 conn1 ls (combine p q).
Lemma conn_length ls p q : length p = length ls -> length q = length ls -> length (conn ls p q) = length ls.
Proof. intros. unfold conn. rewrite map2_length; auto. rewrite combine_length. lia. Qed.
Lemma conn_lattice cs p q : wf_box cs -> is_pos cs p -> is_pos cs q ->
  lattice_eq cs q (vadd (conn (limits cs) p q) p).
Proof. unfold wf_box, is_pos, lattice_eq. generalize (limits cs) as ls. intros ls. revert p q.
  induction ls as [|[lo hi] ls IH]; destruct p as [|x p], q as [|y q]; simpl; intros Hw Hp Hq; try lia.
  - exists []. constructor.
  - inversion Hw; subst. destruct (IH p q) as [ks Hk]; auto.
    destruct (@conn1_spec lo hi x y H1) as [[k Ek] _].
    exists (k :: ks). unfold conn, vadd. simpl map2.
    replace (conn1 (lo, hi) (x, y) + x) with (y + qc k * (hi - lo)) by auto.
    constructor. auto. Qed.
Lemma conn_sq cs p q : periodic cs = true -> wf_box cs -> is_pos cs p -> is_pos cs q ->
  qsum (map (fun d => d * d) (conn (limits cs) p q)) = dist_sq cs p q.
Proof. unfold dist_sq, wf_box, is_pos, conn. intros ->. generalize (limits cs) as ls. intros ls. revert p q.
  induction ls as [|[lo hi] ls IH]; destruct p as [|x p], q as [|y q]; simpl; intros Hw Hp Hq; try lia; auto.
  inversion Hw; subst. rewrite IH; auto. destruct (@conn1_spec lo hi x y H1) as [_ [E _]].
  simpl in *. rewrite E. reflexivity. Qed.
Lemma conn_half cs p q : wf_box cs -> is_pos cs p -> is_pos cs q ->
  Forall2 (fun l c => qabs c <= (snd l - fst l) * half) (limits cs) (conn (limits cs) p q).
Proof. unfold wf_box, is_pos, conn. generalize (limits cs) as ls. intros ls. revert p q.
  induction ls as [|[lo hi] ls IH]; destruct p as [|x p], q as [|y q]; simpl; intros Hw Hp Hq; try lia; constructor.
  - inversion Hw; subst. apply conn1_spec. auto.
  - inversion Hw; subst. apply IH; auto. Qed.
Lemma vadd_length p q : length p = length q -> length (vadd p q) = length q.
Proof. intros. unfold vadd. rewrite map2_length; auto. Qed.

(** the assertion never fires *)
Lemma connecting_vector_ok cs p q : periodic cs = true -> wf_box cs -> is_pos cs p -> is_pos cs q ->
  connecting_vector cs p q = Ok (conn (limits cs) p q).
Proof. intros Per Hw Hp Hq. unfold connecting_vector. rewrite Per. simpl negb. cbv iota.
  fold (conn (limits cs) p q). pose proof (conn_lattice cs p q Hw Hp Hq) as HL.
  assert (E : dist_sq cs (vadd (conn (limits cs) p q) p) q = 0).
  { apply dist_sq_zero; auto. 
    - unfold is_pos. rewrite vadd_length; auto. rewrite conn_length; auto.
    - apply lattice_eq_sym. auto. }
  unfold dist_lt. rewrite E. 
  replace (ltb 0 assert_tol && ltb 0 (assert_tol * assert_tol)) with true; [reflexivity|].
  vm_compute. reflexivity. Qed.

(** ** average *)
Lemma sequence_ok {A} (f : A -> res point) (g : A -> point) l :
  (forall x, In x l -> f x = Ok (g x)) -> sequence (map f l) = Ok (map g l).
Proof. induction l as [|x l IH]; simpl; intros H; auto. rewrite H by auto.
  rewrite IH by auto. reflexivity. Qed.

Lemma average_per cs o ps : periodic cs = true -> wf_box cs -> Forall (is_pos cs) (o :: ps) ->
  average cs (o :: ps) = Ok (map2 pymod (vadd o (mean (dim cs) (map (conn (limits cs) o) (o :: ps)))) (size cs)).
Proof. intros Per Hw Hf. unfold average. rewrite Per. cbn [negb].
  rewrite (sequence_ok _ (conn (limits cs) o)); [reflexivity|].
  intros x Hx. rewrite Forall_forall in Hf. apply connecting_vector_ok; auto; apply Hf; simpl; auto. Qed.
