(** Combined forms of the geometry lemmas, used by PropGeom.v. *)
From Verif Require Import Base BaseFacts CoordSys SpecGeom CoordSysFacts AverageFacts.
Open Scope Qc_scope.

Lemma coordinate_system_wf lims per :
  Forall (fun l => fst l <> snd l) lims -> wf_box (coordinate_system lims per).
Proof. unfold wf_box. simpl. induction 1 as [|[a b] ls Hab Hls IH]; simpl; constructor; auto.
  unfold sort2. cbn [fst snd] in *. destruct (ltb b a) eqn:E; cbn [fst snd]; [apply ltb_spec; auto|].
  apply ltb_false in E. apply Qcle_lt_or_eq in E as [|]; congruence. Qed.

Lemma normalize_spec cs p : wf_box cs -> is_pos cs p ->
  (periodic cs = true -> in_box cs (normalize_position cs p) /\ lattice_eq cs p (normalize_position cs p)) /\
  (periodic cs = false -> normalize_position cs p = p) /\
  normalize_position cs (normalize_position cs p) = normalize_position cs p.
Proof. intros Hw Hp. repeat split; auto using normalize_in_box, normalize_shifted, normalize_nonper, normalize_idem. Qed.

Lemma normalize_canonical cs p q : periodic cs = true -> wf_box cs -> is_pos cs p -> is_pos cs q ->
  (normalize_position cs p = normalize_position cs q <-> lattice_eq cs p q).
Proof. intros Per Hw Hp Hq. split.
  - intros E. eapply lattice_eq_trans; [apply normalize_shifted; auto|]. rewrite E.
    apply lattice_eq_sym, normalize_shifted; auto.
  - apply normalize_lattice_inv; auto. Qed.

Lemma frac_spec cs p : wf_box cs -> is_pos cs p ->
  get_pos cs (get_frac cs p) = normalize_position cs p /\
  get_frac cs (get_pos cs p) = map (fun x => if periodic cs then x - qc (qfloor x) else x) p /\
  (periodic cs = true -> Forall (fun f => 0 <= f /\ f < 1) (get_frac cs p)).
Proof. intros Hw Hp. split; [apply get_pos_frac; auto|]. split; [|intros; apply get_frac_range; auto].
  rewrite get_frac_pos by auto. apply map_ext. intros x. destruct (periodic cs); auto.
  unfold pymod. replace (x / 1) with x by (field; discriminate). ring. Qed.

Lemma dist_zero_iff cs p q : wf_box cs -> is_pos cs p -> is_pos cs q ->
  (dist_sq cs p q = 0 <-> if periodic cs then lattice_eq cs p q else p = q).
Proof. intros Hw Hp Hq. destruct (periodic cs) eqn:Per; [apply dist_sq_zero; auto|].
  rewrite dist_sq_nonper by auto. apply euclid_sq_zero. unfold is_pos in *. congruence. Qed.

Lemma len_sq_qsum v : len_sq v = qsum (map (fun d => d * d) v).
Proof. unfold len_sq. induction v; simpl; auto. rewrite IHv. ring. Qed.

Lemma vadd_comm p q : vadd p q = vadd q p.
Proof. unfold vadd. revert q. induction p; destruct q; simpl; auto. rewrite IHp. f_equal. ring. Qed.
Lemma vadd_vsub p q : length p = length q -> vadd p (vsub q p) = q.
Proof. unfold vadd, vsub. revert q. induction p; destruct q; simpl; intros; try lia; auto. rewrite IHp by lia. f_equal. ring. Qed.
Lemma len_sq_vsub p q : length p = length q -> len_sq (vsub q p) = euclid_sq p q.
Proof. rewrite len_sq_qsum. unfold vsub. revert q. induction p; destruct q; simpl; intros; try lia; auto.
  rewrite IHp by lia. reflexivity. Qed.

Lemma connecting_vector_spec cs p q : wf_box cs -> is_pos cs p -> is_pos cs q ->
  exists v, connecting_vector cs p q = Ok v /\ is_pos cs v /\
    (if periodic cs then lattice_eq cs q (vadd p v) else vadd p v = q) /\
    len_sq v = dist_sq cs p q /\
    (periodic cs = true -> Forall2 (fun l c => qabs c <= (snd l - fst l) * half) (limits cs) v).
Proof. intros Hw Hp Hq. destruct (periodic cs) eqn:Per.
  - exists (conn (limits cs) p q). split; [apply connecting_vector_ok; auto|].
    split; [apply conn_length; auto|]. split; [rewrite vadd_comm; apply conn_lattice; auto|].
    split; [rewrite len_sq_qsum; apply conn_sq; auto|]. intros _. apply conn_half; auto.
  - assert (L : length p = length q) by (unfold is_pos in *; congruence).
    exists (vsub q p). unfold connecting_vector. rewrite Per. split; [reflexivity|].
    split; [unfold is_pos, vsub; rewrite map2_length by auto; apply Hq|].
    split; [apply vadd_vsub; auto|]. split; [|discriminate].
    rewrite dist_sq_nonper by auto. apply len_sq_vsub; auto. Qed.

Lemma average_nonper cs ps : periodic cs = false -> Forall (is_pos cs) ps -> ps <> [] ->
  exists a, average cs ps = Ok a /\ is_pos cs a /\
    forall i, (i < dim cs)%nat -> nth i a 0 = mean_coord i ps.
Proof. intros Per Hf Hn. exists (mean (dim cs) ps). unfold average. rewrite Per. simpl.
  destruct ps; [congruence|]. split; [reflexivity|].
  split; [apply mean_length; apply Forall_is_pos_len; auto|].
  intros i Hi. apply mean_nth; auto using Forall_is_pos_len. Qed.

Lemma average_periodic cs o ps : periodic cs = true -> wf_box cs -> Forall (is_pos cs) (o :: ps) ->
  exists a vs m, average cs (o :: ps) = Ok a /\
    Forall2 (fun p v => connecting_vector cs o p = Ok v) (o :: ps) vs /\
    is_pos cs m /\ (forall i, (i < dim cs)%nat -> nth i m 0 = mean_coord i vs) /\
    lattice_eq cs (vadd o m) a /\
    Forall2 (fun l x => 0 <= x /\ x < snd l - fst l) (limits cs) a.
Proof. intros Per Hw Hf. rewrite average_per by auto. inversion Hf as [|? ? Ho Hps]; subst.
  set (vs := map (conn (limits cs) o) (o :: ps)).
  assert (L : Forall (fun p => length p = dim cs) vs) by (apply Forall_conn_len; auto).
  assert (Lm : is_pos cs (mean (dim cs) vs)) by (apply mean_length; auto).
  assert (Lv : is_pos cs (vadd o (mean (dim cs) vs))).
  { unfold is_pos in *. rewrite vadd_length; congruence. }
  eexists; exists vs, (mean (dim cs) vs). split; [reflexivity|]. split.
  - subst vs. clear - Hf Per Hw Ho. induction Hf; simpl; constructor; auto. apply connecting_vector_ok; auto.
  - repeat split; auto.
    + intros i Hi. apply mean_nth; auto.
    + apply pymod_vec_lattice; auto.
    + apply pymod_vec_range; auto. Qed.

Lemma average_out_of_box : exists cs ps a, periodic cs = true /\ wf_box cs /\ Forall (is_pos cs) ps /\
  Forall (in_box cs) ps /\ ps <> [] /\ average cs ps = Ok a /\ ~ in_box cs a.
Proof.
  exists (mk_cs [(qc (-1), qc 1)] true), [[qc 0 - half]], [qc 1 + half].
  split; [reflexivity|]. split; [constructor; [reflexivity|constructor]|].
  split; [repeat constructor|].
  split; [constructor; [constructor; [split; [discriminate|reflexivity]|constructor]|constructor]|].
  split; [discriminate|]. split; [vm_compute; f_equal; f_equal; apply Qc_is_canon; reflexivity|].
  intros H. inversion H as [|? ? ? ? [_ Hx] _]; subst. discriminate Hx. Qed.
