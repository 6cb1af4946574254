From Verif Require Import Base BaseFacts CoordSys CellListFacts Queue SpecQueue.
Set Implicit Arguments.
Open Scope Qc_scope.

(** ** sorting *)
Section Sort.
  Context {A : Type} (leb : A -> A -> bool).
  Hypothesis leb_total : forall x y, leb x y = true \/ leb y x = true.
  Hypothesis leb_trans : forall x y z, leb x y = true -> leb y z = true -> leb x z = true.
  Hypothesis leb_antisym : forall x y, leb x y = true -> leb y x = true -> x = y.
  Lemma insert_perm x l : Permutation (insert_by leb x l) (x :: l).
  Proof. induction l as [|y l IH]; simpl; auto. destruct (leb x y); auto.
    rewrite IH. apply perm_swap. Qed.
  Lemma sort_perm l : Permutation (sort_by leb l) l.
  Proof. induction l as [|x l IH]; simpl; auto. rewrite insert_perm. auto. Qed.
  Inductive sorted : list A -> Prop :=
  | sorted_nil : sorted []
  | sorted_cons x l : Forall (fun y => leb x y = true) l -> sorted l -> sorted (x :: l).
  Lemma insert_sorted x l : sorted l -> sorted (insert_by leb x l).
  Proof. induction 1 as [|y l Hy Hl IH]; simpl; [repeat constructor|]. destruct (leb x y) eqn:E.
    - constructor; [|constructor; auto]. constructor; auto. eapply Forall_impl; [|exact Hy]. eauto.
    - constructor; auto. assert (leb y x = true) by (destruct (leb_total x y); congruence).
      eapply Permutation_Forall; [symmetry; apply insert_perm|]. constructor; auto. Qed.
  Lemma sort_sorted l : sorted (sort_by leb l).
  Proof. induction l; simpl; [constructor|apply insert_sorted; auto]. Qed.
  Lemma sorted_unique l m : sorted l -> sorted m -> Permutation l m -> l = m.
  Proof. intros Hl. revert m. induction Hl as [|x l Hx Hl IH]; intros m Hm P.
    - apply Permutation_nil in P. auto.
    - destruct Hm as [|y m Hy Hm]; [apply Permutation_sym, Permutation_nil in P; discriminate|].
      assert (x = y).
      { apply leb_antisym.
        - assert (In y (x :: l)) by (eapply Permutation_in; [symmetry; exact P|left; auto]).
          destruct H as [->|H]; [destruct (leb_total y y); auto|]. rewrite Forall_forall in Hx. auto.
        - assert (In x (y :: m)) by (eapply Permutation_in; [exact P|left; auto]).
          destruct H as [->|H]; [destruct (leb_total x x); auto|]. rewrite Forall_forall in Hy. auto. }
      subst. f_equal. apply IH; auto. eapply Permutation_cons_inv; eauto. Qed.
  Lemma sort_canonical l m : Permutation l m -> sort_by leb l = sort_by leb m.
  Proof. intros P. apply sorted_unique; auto using sort_sorted. rewrite !sort_perm. auto. Qed.
  Lemma sort_idem l : sort_by leb (sort_by leb l) = sort_by leb l.
  Proof. apply sort_canonical, sort_perm. Qed.
End Sort.

(** ** lexicographic order *)
Lemma lex_total x y : lex_leb ltb x y = true \/ lex_leb ltb y x = true.
Proof. revert y. induction x as [|a x IH]; destruct y as [|b y]; simpl; auto.
  destruct (eq_dec a b) as [->|N]; [rewrite !eqb_refl; auto|].
  rewrite (proj2 (eqb_false a b)) by auto. rewrite (proj2 (eqb_false b a)) by auto.
  destruct (Qclt_le_dec a b); [left|right]; apply ltb_spec; auto.
  apply Qcle_lt_or_eq in q as [|]; congruence. Qed.
Lemma lex_trans x y z : lex_leb ltb x y = true -> lex_leb ltb y z = true -> lex_leb ltb x z = true.
Proof. revert y z. induction x as [|a x IH]; destruct y as [|b y], z as [|c z]; simpl; auto; try discriminate.
  unfold eqb. destruct (eq_dec a b) as [->|N]; destruct (eq_dec b c) as [->|N'].
  - apply IH.
  - auto.
  - destruct (eq_dec a c); try congruence; auto.
  - intros H1 H2. apply ltb_spec in H1. apply ltb_spec in H2. destruct (eq_dec a c) as [->|].
    + exfalso. qlra.
    + apply ltb_spec. qlra. Qed.
Lemma lex_antisym x y : lex_leb ltb x y = true -> lex_leb ltb y x = true -> x = y.
Proof. revert y. induction x as [|a x IH]; destruct y as [|b y]; simpl; auto; try discriminate.
  destruct (eq_dec a b) as [->|N]; [rewrite !eqb_refl; intros; f_equal; auto|].
  rewrite (proj2 (eqb_false a b)) by auto. rewrite (proj2 (eqb_false b a)) by auto.
  intros H1 H2. apply ltb_spec in H1. apply ltb_spec in H2. exfalso. qlra. Qed.

Lemma norm_simplex_perm s : Permutation (norm_simplex s) s.
Proof. apply sort_perm. Qed.
Lemma norm_simplex_spec s t : norm_simplex s = norm_simplex t <-> Permutation s t.
Proof. split.
  - intros E. rewrite <- (norm_simplex_perm s), E. apply norm_simplex_perm.
  - apply sort_canonical; [apply lex_total | apply lex_trans | apply lex_antisym]. Qed.
Lemma norm_simplex_idem s : norm_simplex (norm_simplex s) = norm_simplex s.
Proof. apply norm_simplex_spec, norm_simplex_perm. Qed.

(** ** first occurrences *)
Section Occ.
  Context {A : Type} `{EqDec A}.
  Lemma first_occ_seen (seen seen' l : list A) : (forall x, In x seen <-> In x seen') ->
    first_occurrences seen l = first_occurrences seen' l.
  Proof. revert seen seen'. induction l as [|x l IH]; simpl; intros seen seen' E; auto.
    assert (M : mem x seen = mem x seen') by (apply eq_true_iff_eq; rewrite !mem_spec; auto).
    rewrite M. destruct (mem x seen'); auto. f_equal. apply IH. intros y. simpl. rewrite E. tauto. Qed.
  Lemma first_occ_app seen (l m : list A) : first_occurrences seen (l ++ m) =
    first_occurrences seen l ++ first_occurrences (l ++ seen) m.
  Proof. revert seen. induction l as [|x l IH]; simpl; intros seen; auto.
    destruct (mem x seen) eqn:M; [|simpl; f_equal].
    - rewrite IH. f_equal. apply first_occ_seen. intros y. rewrite in_app_iff; simpl. rewrite in_app_iff.
      apply mem_spec in M. split; [tauto|]. intros [<-|]; tauto.
    - rewrite IH. f_equal. apply first_occ_seen. intros y. simpl. rewrite !in_app_iff. simpl. tauto. Qed.
  Lemma first_occ_in seen (l : list A) y : In y (first_occurrences seen l) <-> In y l /\ ~ In y seen.
  Proof. revert seen. induction l as [|x l IH]; simpl; intros seen; [tauto|].
    destruct (mem x seen) eqn:M.
    - apply mem_spec in M. rewrite IH. split; [tauto|]. intros [[<-|] ?]; tauto.
    - apply mem_false in M. simpl. rewrite IH. simpl. destruct (eq_dec x y) as [<-|]; tauto. Qed.
  Lemma first_occ_nodup seen (l : list A) : NoDup (first_occurrences seen l).
  Proof. revert seen. induction l as [|x l IH]; simpl; intros seen; [constructor|].
    destruct (mem x seen); auto. constructor; auto. rewrite first_occ_in. simpl. tauto. Qed.
  Lemma first_occ_filter seen (l : list A) : NoDup l ->
    first_occurrences seen l = filter (fun x => negb (mem x seen)) l.
  Proof. intros N. revert seen. induction N as [|x l Hx N IH]; simpl; intros seen; auto.
    destruct (mem x seen) eqn:M; simpl; auto. f_equal. rewrite IH. apply filter_ext_in. intros y Hy. simpl.
    rewrite (proj2 (eqb_false y x)); [reflexivity|congruence]. Qed.
  Lemma NoDup_filter_perm (f : A -> bool) l : NoDup l -> NoDup (filter f l).
  Proof. apply NoDup_filter. Qed.
End Occ.

(** ** the queue invariant *)
Section Inv.
  Context {A : Type} `{EqDec A}.
  Variable norm : A -> A.

  (** [hist]: every object ever added, in order; [popped]: objects popped *)
  Record q_inv (q : queue A) (hist popped fin : list A) : Prop := {
    qi_order : popped ++ q_queued q = first_occurrences [] hist;
    qi_all : forall x, In x (q_all q) <-> In x hist;
    qi_run : Permutation (q_running q ++ fin) popped
  }.

  Lemma q_inv_new objs : NoDup (map norm objs) -> q_inv (queue_new norm objs) (map norm objs) [] [].
  Proof. intros N. constructor; simpl; auto.
    - rewrite first_occ_filter by auto. symmetry. rewrite (filter_ext _ (fun _ => true)); [|reflexivity].
      clear. induction (map norm objs); simpl; congruence.
    - intros x. apply in_dedup. Qed.

  Lemma add_objects_queued q b : q_queued (add_objects norm q b) =
    q_queued q ++ filter (fun o => negb (mem o (q_all q))) (map norm b).
  Proof. unfold add_objects. destruct (filter _ _) eqn:E; simpl; auto. rewrite app_nil_r. auto. Qed.
  Lemma add_objects_all q b x : In x (q_all (add_objects norm q b)) <-> In x (q_all q) \/ In x (map norm b).
  Proof. unfold add_objects. destruct (filter _ _) eqn:E.
    - split; [auto|]. intros [|Hx]; auto. destruct (mem x (q_all q)) eqn:M; [apply mem_spec; auto|].
      assert (F : In x (filter (fun o => negb (mem o (q_all q))) (map norm b))).
      { apply filter_In. rewrite M. auto. }
      rewrite E in F. destruct F.
    - cbn [q_all]. rewrite in_set_update, <- E, filter_In. split; [tauto|].
      intros [|Hx]; auto. destruct (mem x (q_all q)) eqn:M; [left; apply mem_spec; auto|auto]. Qed.
  Lemma add_objects_running q b : q_running (add_objects norm q b) = q_running q.
  Proof. unfold add_objects. destruct (filter _ _); reflexivity. Qed.

  Lemma q_inv_add q hist popped fin b : q_inv q hist popped fin -> NoDup (map norm b) ->
    q_inv (add_objects norm q b) (hist ++ map norm b) popped fin.
  Proof. intros [Ho Ha Hr] N. constructor.
    - rewrite add_objects_queued, app_assoc, Ho, first_occ_app, app_nil_r. f_equal.
      rewrite first_occ_filter by auto. apply filter_ext. intros x. f_equal.
      apply eq_true_iff_eq. rewrite !mem_spec. auto.
    - intros x. rewrite add_objects_all, in_app_iff, Ha. tauto.
    - rewrite add_objects_running. auto. Qed.

  Lemma q_inv_pop q hist popped fin q' o : q_inv q hist popped fin -> pop_running q = Ok (q', o) ->
    q_inv q' hist (popped ++ [o]) fin /\ ~ In o popped.
  Proof. intros [Ho Ha Hr]. unfold pop_running, pop_object. destruct (q_queued q) as [|x xs] eqn:E; [discriminate|].
    cbn [bind]. injection 1 as <- <-.
    pose proof (first_occ_nodup [] hist) as N. rewrite <- Ho in N.
    assert (Np : ~ In x popped). { apply NoDup_remove_2 in N. rewrite in_app_iff in N. tauto. }
    split; auto. constructor; simpl; auto.
    - rewrite <- app_assoc. auto.
    - unfold set_add. rewrite (proj2 (mem_false x (q_running q))).
      + rewrite <- app_assoc. simpl. rewrite <- Permutation_middle, Hr. apply Permutation_cons_append.
      + intros Hx. apply Np. eapply Permutation_in; [exact Hr|]. apply in_app_iff. auto. Qed.

  Lemma q_inv_running_nodup q hist popped fin : q_inv q hist popped fin -> NoDup (q_running q ++ fin).
  Proof. intros [Ho Ha Hr]. eapply Permutation_NoDup; [symmetry; exact Hr|].
    pose proof (first_occ_nodup [] hist) as N. rewrite <- Ho in N. 
    clear - N. induction popped; simpl in *; [constructor|]. inversion N; subst. constructor; auto.
    rewrite in_app_iff in H1. tauto. Qed.

  Lemma q_inv_finish q hist popped fin q' o : q_inv q hist popped fin -> set_finished q o = Ok q' ->
    q_inv q' hist popped (fin ++ [o]).
  Proof. intros I. unfold set_finished. destruct (mem o (q_running q)) eqn:M; [|discriminate].
    injection 1 as <-. pose proof (q_inv_running_nodup I) as N. destruct I as [Ho Ha Hr]. constructor; simpl; auto.
    apply mem_spec in M. assert (Nr : NoDup (q_running q)).
    { clear - N. induction (q_running q); simpl in *; [constructor|]. inversion N; subst. constructor; auto.
      rewrite in_app_iff in *. tauto. }
    rewrite <- Hr. pose proof (@Permutation_remove_all _ _ o (q_running q) Nr M) as P.
    rewrite P at 2. simpl. rewrite app_assoc. rewrite <- Permutation_cons_append. auto. Qed.

  Lemma run_qops_inv ops : forall q hist popped fin q' ps, q_inv q hist popped fin -> batches_nodup norm ops ->
    run_qops norm q ops = Ok (q', ps) ->
    q_inv q' (hist ++ map norm (added ops)) (popped ++ ps) (fin ++ finished_objs ops).
  Proof. induction ops as [|op ops IH]; intros q hist popped fin q' ps I B E; simpl in *.
    - injection E as <- <-. rewrite !app_nil_r. auto.
    - destruct op as [b| |o]; simpl in *.
      + destruct B as [Nb B]. rewrite map_app, app_assoc. eapply IH; eauto. apply q_inv_add; auto.
      + destruct (pop_running q) as [[q1 o1]|] eqn:E1; [|discriminate]. cbn [bind fst snd] in E.
        destruct (run_qops norm q1 ops) as [[q2 ps2]|] eqn:E2; [|discriminate]. cbn [bind fst snd] in E.
        injection E as <- <-. change (o1 :: ps2) with ([o1] ++ ps2). rewrite app_assoc.
        eapply IH; eauto. eapply q_inv_pop; eauto.
      + destruct (set_finished q o) as [q1|] eqn:E1; [|discriminate]. cbn [bind] in E.
        change (o :: finished_objs ops) with ([o] ++ finished_objs ops). rewrite app_assoc.
        eapply IH; eauto. eapply q_inv_finish; eauto. Qed.
End Inv.

Section Reload.
  Context {A : Type} `{EqDec A}.
  Variable norm : A -> A.
  Hypothesis norm_idem : forall x, norm (norm x) = norm x.

  Lemma map_norm_fixed l hist : (forall x, In x l -> In x (map norm hist)) -> map norm l = l.
  Proof. intros Hl. rewrite <- (map_id l) at 2. apply map_ext_in. intros x Hx. apply Hl in Hx.
    apply in_map_iff in Hx as (y & <- & _). auto. Qed.

  Lemma q_inv_reload order q hist popped fin : (forall l, Permutation (order l) l) ->
    q_inv q (map norm hist) popped fin ->
    let q' := queue_new norm (objects order q) in
    q_queued q' = objects order q /\ q_running q' = [] /\ (forall order', finished order' q' = true <-> finished order q = true /\ order' [] = []) /\
    q_inv q' (objects order q) [] [].
  Proof. intros Hord I q'.
    assert (Hin : forall x, In x (objects order q) -> In x (map norm hist)).
    { intros x Hx. unfold objects in Hx. rewrite in_app_iff in Hx. destruct I as [Ho Ha Hr].
      assert (Hx' : In x (popped ++ q_queued q)).
      { rewrite in_app_iff. destruct Hx as [Hx|]; auto. left. eapply Permutation_in; [exact Hr|].
        rewrite in_app_iff. left. eapply Permutation_in; [apply Hord|]; auto. }
      rewrite Ho, first_occ_in in Hx'. tauto. }
    assert (E : map norm (objects order q) = objects order q) by (eapply map_norm_fixed; eauto).
    assert (N : NoDup (objects order q)).
    { destruct I as [Ho Ha Hr]. pose proof (first_occ_nodup [] (map norm hist)) as N. rewrite <- Ho in N.
      unfold objects. assert (P : Permutation (fin ++ (order (q_running q) ++ q_queued q)) (popped ++ q_queued q)).
      { rewrite app_assoc. apply Permutation_app_tail. rewrite Hord. rewrite <- Hr. apply Permutation_app_comm. }
      apply Permutation_sym in P. pose proof (Permutation_NoDup P N) as N2.
      clear - N2. induction fin; simpl in *; auto. inversion N2; auto. }
    split; [unfold q'; simpl; auto|]. split; [reflexivity|]. split.
    - intros order'. unfold q', finished. unfold objects at 1. simpl. rewrite E.
      destruct (objects order q); simpl; destruct (order' []); simpl; split; try tauto; try discriminate; try (intros [? ?]; discriminate); auto.
    - pose proof (q_inv_new norm (objects order q)) as I'. rewrite E in I'. apply I'. auto. Qed.
End Reload.

Lemma duplicate_batch {A} `{EqDec A} (x : A) :
  exists q, run_qops (fun y => y) (queue_new (fun y => y) []) [QAdd [x; x]; QPop; QPop] = Ok (q, [x; x]) /\
    exists q', set_finished q x = Ok q' /\ set_finished q' x = Err KeyError.
Proof. exists (mk_queue [] [x] [x] true). split.
  - unfold queue_new, add_objects, pop_running, pop_object, dedup, set_update, set_add.
    cbn -[eqb]. unfold set_add. cbn -[eqb]. rewrite eqb_refl. reflexivity.
  - exists (mk_queue [] [x] [] true). unfold set_finished, remove_all. cbn -[eqb]. rewrite eqb_refl. cbn -[eqb]. auto. Qed.
