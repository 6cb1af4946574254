(** Lemmas about [average]. *)
From Verif Require Import Base BaseFacts CoordSys SpecGeom CoordSysFacts.
Open Scope Qc_scope.

Lemma nth_map2 {A B C} (f : A -> B -> C) l m i da db dc :
  length l = length m -> (i < length l)%nat -> nth i (map2 f l m) dc = f (nth i l da) (nth i m db).
Proof. revert m i. induction l as [|a l IH]; destruct m as [|b m], i as [|i]; simpl; intros; try lia; auto.
  apply IH; lia. Qed.
Lemma nth_map_lt {A B} (f : A -> B) l i da db :
  (i < length l)%nat -> nth i (map f l) db = f (nth i l da).
Proof. revert i. induction l as [|a l IH]; destruct i; simpl; intros; try lia; auto. apply IH. lia. Qed.
Lemma nth_repeat0 n i : nth i (repeat 0 n) 0 = 0.
Proof. revert i. induction n; destruct i; simpl; auto. Qed.

Lemma vsum_length n ps : Forall (fun p => length p = n) ps -> length (vsum n ps) = n.
Proof. induction 1; simpl; [apply repeat_length|]. rewrite vadd_length; auto. lia. Qed.
Lemma vsum_nth n ps i : Forall (fun p => length p = n) ps -> (i < n)%nat ->
  nth i (vsum n ps) 0 = qsum (map (fun p => nth i p 0) ps).
Proof. induction 1 as [|p ps Hp Hps IH]; simpl; intros Hi; [apply nth_repeat0|].
  unfold vadd. rewrite (nth_map2 _ _ _ i 0 0 0); try rewrite vsum_length; auto; try lia.
  fold vsum. rewrite IH; auto. Qed.
Lemma mean_length n ps : Forall (fun p => length p = n) ps -> length (mean n ps) = n.
Proof. intros. unfold mean. rewrite map_length. apply vsum_length; auto. Qed.
Lemma mean_nth n ps i : Forall (fun p => length p = n) ps -> (i < n)%nat ->
  nth i (mean n ps) 0 = mean_coord i ps.
Proof. intros H Hi. unfold mean, mean_coord, mean1.
  rewrite (nth_map_lt _ _ i 0 0), vsum_nth, map_length; auto. rewrite vsum_length; auto. Qed.

Lemma qsum_sub_const {A} (f : A -> Qc) c l :
  qsum (map (fun p => f p - c) l) = qsum (map f l) - qc (Z.of_nat (length l)) * c.
Proof. induction l as [|a l IH]; simpl length; cbn [map qsum fold_right].
  - change (Z.of_nat 0) with 0%Z. rewrite qc_0. ring.
  - fold (qsum (map (fun p => f p - c) l)). fold (qsum (map f l)). rewrite IH.
    rewrite Nat2Z.inj_succ. unfold Z.succ. rewrite qc_add, qc_1. ring. Qed.
Lemma mean1_sub_const {A} (f : A -> Qc) c l : l <> [] ->
  c + mean1 (map (fun p => f p - c) l) = mean1 (map f l).
Proof. intros Hl. unfold mean1. rewrite qsum_sub_const, !map_length. field.
  intros E. rewrite <- qc_0 in E. apply qc_inj in E. destruct l; simpl in *; [congruence|lia]. Qed.

(** lattice invariance *)
Lemma conn1_shift lo hi x y k j : lo < hi ->
  conn1 (lo, hi) (x + qc k * (hi - lo), y + qc j * (hi - lo)) = conn1 (lo, hi) (x, y).
Proof. intros. unfold conn1, size1; cbn [fst snd].
  replace (y + qc j * (hi - lo) - (x + qc k * (hi - lo))) with ((y - x) + qc (j - k) * (hi - lo)) by (rewrite qc_sub; ring).
  rewrite pymod_add_mul; auto. qlra. Qed.
Lemma conn_lattice_inv cs p p' q q' : wf_box cs -> lattice_eq cs p p' -> lattice_eq cs q q' ->
  conn (limits cs) p q = conn (limits cs) p' q'.
Proof. unfold wf_box, lattice_eq. intros Hw [ks Hp] [js Hq]. revert Hw js q q' Hq. generalize dependent (limits cs).
  intros ls Hp. induction Hp as [|lo hi ls k ks x p p' H IH]; intros Hw js q q' Hq; inversion Hq; subst; auto.
  inversion Hw; subst. unfold conn in *. simpl. f_equal.
  - symmetry. apply conn1_shift. auto.
  - eapply IH; eauto. Qed.

Lemma pymod_vec_lattice cs v : wf_box cs -> is_pos cs v -> lattice_eq cs v (map2 pymod v (size cs)).
Proof. unfold wf_box, is_pos, lattice_eq, size. generalize (limits cs) as ls. intros ls. revert v.
  induction ls as [|[lo hi] ls IH]; destruct v as [|x v]; simpl; intros Hw Hl; try lia.
  - exists []. constructor.
  - inversion Hw; subst. destruct (IH v) as [ks Hk]; auto.
    exists (- qfloor (x / size1 (lo, hi)) :: ks)%Z. rewrite pymod_shift.
    replace (x - qc (qfloor (x / size1 (lo, hi))) * size1 (lo, hi)) with
      (x + qc (- qfloor (x / size1 (lo, hi))) * (hi - lo)) by (unfold size1; cbn [fst snd]; rewrite qc_opp; ring).
    constructor. auto. Qed.
Lemma pymod_vec_eq cs v w : wf_box cs -> lattice_eq cs v w -> map2 pymod v (size cs) = map2 pymod w (size cs).
Proof. unfold wf_box, lattice_eq, size. intros Hw [ks H]. revert Hw. generalize dependent (limits cs).
  intros ls H. induction H; intros Hw; simpl; auto. inversion Hw; subst. cbn [fst snd] in *. f_equal; auto.
  symmetry. unfold size1; cbn [fst snd]. apply pymod_add_mul. qlra. Qed.
Lemma pymod_vec_range cs v : wf_box cs -> is_pos cs v ->
  Forall2 (fun l x => 0 <= x /\ x < snd l - fst l) (limits cs) (map2 pymod v (size cs)).
Proof. unfold wf_box, is_pos, size. generalize (limits cs) as ls. intros ls. revert v.
  induction ls as [|[lo hi] ls IH]; destruct v as [|x v]; simpl; intros Hw Hl; try lia; constructor.
  - inversion Hw; subst. apply pymod_range. unfold size1. cbn [fst snd] in *. qlra.
  - inversion Hw; subst. apply IH; auto. Qed.

Lemma lattice_eq_vadd cs p p' d : lattice_eq cs p p' -> is_pos cs d -> lattice_eq cs (vadd p d) (vadd p' d).
Proof. unfold lattice_eq, is_pos. intros [ks H]. revert d. generalize dependent (limits cs). intros ls H.
  induction H as [|lo hi ls k ks x p p' H IH]; intros [|y d] Hd; simpl in *; try lia.
  - exists []. constructor.
  - destruct (IH d) as [js Hj]; [lia|]. 
    exists (k :: js). unfold vadd in *. cbn [map2]. replace (x + qc k * (hi - lo) + y) with (x + y + qc k * (hi - lo)) by ring.
    constructor. exact Hj. Qed.

Lemma Forall_is_pos_len cs ps : Forall (is_pos cs) ps -> Forall (fun p => length p = dim cs) ps.
Proof. apply Forall_impl. auto. Qed.
Lemma Forall_conn_len cs o ps : is_pos cs o -> Forall (is_pos cs) ps ->
  Forall (fun p => length p = dim cs) (map (conn (limits cs) o) ps).
Proof. intros Ho. induction 1; simpl; constructor; auto. apply conn_length; auto. Qed.

Lemma average_per_lattice cs ps ps' : periodic cs = true -> wf_box cs ->
  Forall2 (lattice_eq cs) ps ps' -> average cs ps = average cs ps'.
Proof. intros Per Hw H. destruct H as [|o o' ps ps' Ho Hps]; [reflexivity|].
  assert (P : Forall (is_pos cs) (o :: ps) /\ Forall (is_pos cs) (o' :: ps')).
  { pose proof (lattice_eq_is_pos _ _ _ Ho).
    assert (Forall (is_pos cs) ps /\ Forall (is_pos cs) ps').
    { clear - Hps. induction Hps as [|p p' ps ps' Hp Hps IH]; split; constructor; try tauto;
      apply (lattice_eq_is_pos _ _ _ Hp). }
    split; constructor; tauto. }
  destruct P as [P P']. rewrite !average_per; auto. f_equal.
  assert (E : map (conn (limits cs) o) (o :: ps) = map (conn (limits cs) o') (o' :: ps')).
  { simpl. f_equal.
    - apply conn_lattice_inv; auto.
    - clear P P'. induction Hps; simpl; auto. f_equal; auto. apply conn_lattice_inv; auto. }
  rewrite E. apply pymod_vec_eq; auto. apply lattice_eq_vadd; auto.
  unfold is_pos. apply mean_length. inversion P'; subst. apply Forall_conn_len; auto. Qed.

(** tight clusters *)
Lemma conn1_within lo hi x y : lo < hi -> qabs (y - x) < (hi - lo) * half -> conn1 (lo, hi) (x, y) = y - x.
Proof. intros Hl H. apply qabs_lt in H. destruct H as [H1 H2]. unfold conn1, size1; cbn [fst snd].
  destruct (Qclt_le_dec (y - x) 0) as [N|N].
  - rewrite (@pymod_unique (y - x) (hi - lo) (y - x + (hi - lo)) (-1)%Z); try qlra.
    + dltb (- (y - x + (hi - lo) - (hi - lo))) (y - x + (hi - lo)); [ring|exfalso; qlra].
    + change (-1)%Z with (-(1))%Z. rewrite qc_opp, qc_1. ring.
  - rewrite pymod_small; try qlra. dltb (- (y - x - (hi - lo))) (y - x); [exfalso; qlra|reflexivity]. Qed.
Lemma conn_within cs p q : wf_box cs -> is_pos cs p -> is_pos cs q -> within_half cs p q ->
  conn (limits cs) p q = vsub q p.
Proof. unfold wf_box, is_pos, within_half, conn, vsub. generalize (limits cs) as ls. intros ls. revert p q.
  induction ls as [|[lo hi] ls IH]; destruct p as [|x p], q as [|y q]; simpl; intros Hw Hp Hq H; try lia; auto.
  inversion Hw; subst. inversion H; subst. simpl in *. f_equal.
  - apply conn1_within; auto.
  - apply IH; auto. Qed.

Lemma average_tight cs ps : periodic cs = true -> wf_box cs -> Forall (is_pos cs) ps -> ps <> [] ->
  (forall p q, In p ps -> In q ps -> within_half cs p q) ->
  exists a, average cs ps = Ok a /\ lattice_eq cs (mean (dim cs) ps) a.
Proof. intros Per Hw Hf Hn Ht. destruct ps as [|o ps]; [congruence|].
  rewrite average_per; auto. eexists. split; [reflexivity|].
  assert (Ho : is_pos cs o) by (inversion Hf; auto).
  assert (E : map (conn (limits cs) o) (o :: ps) = map (fun p => vsub p o) (o :: ps)).
  { apply map_ext_in. intros p Hp. rewrite Forall_forall in Hf. apply conn_within; auto. apply Ht; simpl; auto. }
  rewrite E. clear E.
  assert (L : Forall (fun p => length p = dim cs) (map (fun p => vsub p o) (o :: ps))).
  { apply Forall_forall. intros x Hx. apply in_map_iff in Hx as [p [<- Hp]]. rewrite Forall_forall in Hf.
    unfold vsub. rewrite map2_length; [apply Hf; auto|]. rewrite (Hf p Hp). symmetry. apply Ho. }
  replace (vadd o (mean (dim cs) (map (fun p => vsub p o) (o :: ps)))) with (mean (dim cs) (o :: ps)).
  - apply pymod_vec_lattice; auto. unfold is_pos. apply mean_length. apply Forall_is_pos_len. auto.
  - apply nth_ext with 0 0.
    + rewrite vadd_length; rewrite !mean_length; auto using Forall_is_pos_len.
    + rewrite mean_length by (apply Forall_is_pos_len; auto). intros i Hi.
      rewrite mean_nth by auto using Forall_is_pos_len.
      unfold vadd. rewrite (nth_map2 _ _ _ i 0 0 0); [|rewrite mean_length; auto|unfold is_pos, dim in *; lia].
      rewrite mean_nth; auto. unfold mean_coord. rewrite map_map.
      rewrite <- (mean1_sub_const (fun p => nth i p 0) (nth i o 0)) by congruence.
      f_equal. f_equal. apply map_ext_in. intros p Hp. rewrite Forall_forall in Hf.
      unfold vsub. rewrite (nth_map2 _ _ _ i 0 0 0); auto.
      * rewrite (Hf p Hp). symmetry. apply Ho.
      * rewrite (Hf p Hp). apply Hi. Qed.
