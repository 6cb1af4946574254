(** The controller as a sequence of elementary steps, and its basic invariant. *)
From Coq Require Import String.
From Verif Require Import Base BaseFacts CoordSys SpecGeom CoordSysFacts CellList Values Container SpecContainer ContainerFacts ContainerHist
  Queue QueueFacts SpecQueue Hdf5 SpecHdf5 Controller SpecSearch.
Open Scope list_scope.
Open Scope Qc_scope.

(** ** Projections *)
Definition popped (l : list action) : list simplex := flat_map (fun a => match a with AStart s | ADiscard s => [s] | _ => [] end) l.
Definition ended (l : list action) : list simplex := flat_map (fun a => match a with ARecord s _ | ADiscard s => [s] | _ => [] end) l.
Lemma proj_app {A} (f : action -> list A) l m : flat_map f (l ++ m) = flat_map f l ++ flat_map f m.
Proof. apply flat_map_app. Qed.
Ltac proj := unfold popped, ended, started, discarded, recorded, refined, skipped, to_refine in *; rewrite ?proj_app in *; cbn [flat_map] in *; rewrite ?app_nil_r in *.

Definition mstate : Type := controller_state * list task * list action.

(** the state after a result was processed *)
Definition after_result (g : config) (s : controller_state) (log : list action) (sx : simplex) (r : result) (c : container) (b queue_it : bool) (q : queue simplex)
  : controller_state * list action :=
  let pos := normalize_position (c_cs c) (pos_of r) in
  if (b && queue_it)%bool
  then ({| st_result := c; st_simplex := q; st_position := add_objects norm_pos (st_position s) [pos] |}, (log ++ [ARecord sx r]) ++ [AQueue pos])
  else ({| st_result := c; st_simplex := q; st_position := st_position s |}, log ++ [ARecord sx r]).

Inductive micro (g : config) : mstate -> mstate -> Prop :=
| m_skip s tasks log pq pos :
    has_queued (st_simplex s) = false -> pop_object (st_position s) = Ok (pq, pos) -> g_recheck g = true ->
    check_pos_refinement (st_result s) (g_cutoff g) (g_count_cutoff g) pos = Ok false ->
    micro g (s, tasks, log) (with_position s pq, tasks, log ++ [ASkip pos])
| m_refine s tasks log pq pos st c :
    has_queued (st_simplex s) = false -> pop_object (st_position s) = Ok (pq, pos) ->
    (g_recheck g = true -> check_pos_refinement (st_result s) (g_cutoff g) (g_count_cutoff g) pos = Ok true) ->
    g_stencil g = Some st -> set_refined (st_result s) pos = Ok c ->
    micro g (s, tasks, log)
      ({| st_result := c; st_simplex := add_objects norm_simplex (st_simplex s) (translate pos st); st_position := pq |}, tasks, log ++ [ARefine pos])
| m_start s tasks log q sx :
    (num_running (st_simplex s) < g_parallel g)%nat -> pop_running (st_simplex s) = Ok (q, sx) ->
    check_simplex (st_result s) (g_cutoff g) (g_simplex_cutoff g) sx = Ok true ->
    micro g (s, tasks, log) (with_simplex s q, tasks ++ [mk_task sx Pending], log ++ [AStart sx])
| m_discard s tasks log q sx q' :
    (num_running (st_simplex s) < g_parallel g)%nat -> pop_running (st_simplex s) = Ok (q, sx) ->
    check_simplex (st_result s) (g_cutoff g) (g_simplex_cutoff g) sx = Ok false -> set_finished q sx = Ok q' ->
    micro g (s, tasks, log) (with_simplex s q', tasks, log ++ [ADiscard sx])
| m_record s tasks log i r sx c b d q :
    nth_error tasks i = Some (mk_task sx Pending) -> fresh_result (g_cs g) r ->
    add_result (st_result s) r = Ok (c, b) ->
    (b = true -> g_stencil g <> None -> check_pos_refinement c (g_cutoff g) 0 (normalize_position (c_cs c) (pos_of r)) = Ok d) ->
    (g_stencil g = None -> d = false) ->
    set_finished (st_simplex s) sx = Ok q ->
    micro g (s, tasks, log) (fst (after_result g s log sx r c b d q), set_status i Completed tasks, snd (after_result g s log sx r c b d q))
| m_fail s tasks log i e sx :
    nth_error tasks i = Some (mk_task sx Pending) ->
    micro g (s, tasks, log) (s, set_status i (Failed e) tasks, log)
| m_drop s tasks log : exceptions tasks = [] -> micro g (s, tasks, log) (s, pending tasks, log).

Inductive micros (g : config) : mstate -> mstate -> Prop :=
| ms_refl x : micros g x x
| ms_step x y z : micro g x y -> micros g y z -> micros g x z.
Lemma micros_trans g x y z : micros g x y -> micros g y z -> micros g x z.
Proof. induction 1; auto. intros. econstructor; eauto. Qed.
Lemma micros_one g x y : micro g x y -> micros g x y.
Proof. intros. econstructor; eauto. constructor. Qed.

Definition not_completed (t : task) : bool := match t_status t with Completed => false | _ => true end.
Definition open_simplices (tasks : list task) : list simplex := map t_simplex (filter not_completed tasks).

Section Inv.
  Variables (g : config) (rs0 : list result) (ps0 : list point) (Q0 : list simplex) (P0 : list point).
  Hypothesis GC : good_config g.
  Let cs := g_cs g.

  Record inv (x : mstate) : Prop := {
    i_hist : history cs (g_gap g) (g_cutoff g) (rs0 ++ map snd (recorded (snd x))) (ps0 ++ refined (snd x)) (st_result (fst (fst x)));
    i_q : q_inv (st_simplex (fst (fst x))) (Q0 ++ refinements g (snd x)) (popped (snd x)) (ended (snd x));
    i_norm : Forall (fun s => norm_simplex s = s) (Q0 ++ refinements g (snd x));
    i_verts : Forall (Forall (is_pos cs)) (Q0 ++ refinements g (snd x));
    i_tasks : Permutation (open_simplices (snd (fst x))) (q_running (st_simplex (fst (fst x))));
    i_par : (num_running (st_simplex (fst (fst x))) <= g_parallel g)%nat;
    i_pos : Forall (is_pos cs) (q_queued (st_position (fst (fst x))));
    i_pall : forall p, In p (q_all (st_position (fst (fst x)))) <-> In p (P0 ++ to_refine (snd x));
    i_pdone : forall p, In p (q_all (st_position (fst (fst x)))) <-> In p (q_queued (st_position (fst (fst x)))) \/ In p (refined (snd x)) \/ In p (skipped (snd x));
    i_prun : q_running (st_position (fst (fst x))) = [];
    i_none : g_stencil g = None -> q_queued (st_position (fst (fst x))) = [];
    i_pnd : NoDup (q_queued (st_position (fst (fst x))))
  }.

  (** ** Facts about single operations *)
  Lemma pop_object_inv {A} (q : queue A) q' o : pop_object q = Ok (q', o) ->
    q_queued q = o :: q_queued q' /\ q_all q' = q_all q /\ q_running q' = q_running q /\ q_needs_saving q' = q_needs_saving q.
  Proof. unfold pop_object. destruct (q_queued q) as [|x l]; [discriminate|]. intros E. injection E as <- <-. auto. Qed.
  Lemma pop_running_inv {A} `{EqDec A} (q : queue A) q' o : pop_running q = Ok (q', o) ->
    q_queued q = o :: q_queued q' /\ q_all q' = q_all q /\ q_running q' = set_add o (q_running q) /\ q_needs_saving q' = q_needs_saving q.
  Proof. unfold pop_running. destruct (pop_object q) as [[q1 o1]|] eqn:E; [|discriminate]. apply pop_object_inv in E as (E1 & E2 & E3 & E4).
    cbn. intros X. injection X as <- <-. cbn. rewrite E3. auto. Qed.

  Lemma refinements_snoc log p st : g_stencil g = Some st -> refinements g (log ++ [ARefine p]) = refinements g log ++ map norm_simplex (translate p st).
  Proof. intros E. unfold refinements. rewrite E. proj. rewrite flat_map_app. cbn. rewrite app_nil_r. reflexivity. Qed.
  Lemma refinements_other log a : (forall p, a <> ARefine p) -> refinements g (log ++ [a]) = refinements g log.
  Proof. intros H. unfold refinements. destruct (g_stencil g); auto. proj. f_equal. destruct a; auto; rewrite ?app_nil_r; auto. exfalso. eapply H. reflexivity. Qed.

  (** translation of a duplicate-free stencil *)
  Lemma vadd_inj p x y : length p = length x -> length p = length y -> vadd p x = vadd p y -> x = y.
  Proof. revert x y. induction p as [|a p IH]; intros [|b x] [|c y] L1 L2 E; cbn in L1, L2; try discriminate; auto.
    unfold vadd in E. cbn [map2] in E. pose proof (f_equal (hd 0) E) as E1. pose proof (f_equal (@tl Qc) E) as E2. cbn [hd tl] in E1, E2. f_equal; [|apply IH; auto; lia]. transitivity (a + b - a); [ring|]. rewrite E1. ring. Qed.
  Lemma vadd_len p x : length p = length x -> length (vadd p x) = length x.
  Proof. intros L. unfold vadd. rewrite map2_length; auto. Qed.
  Lemma perm_map_inv (f : point -> point) (l m : list point) : (forall x y, In x l -> In y m -> f x = f y -> x = y) ->
    Permutation (map f l) (map f m) -> Permutation l m.
  Proof. revert m. induction l as [|x l IH]; intros m Hf P; cbn in P.
    - apply Permutation_nil in P. destruct m; [auto|discriminate].
    - assert (I : In (f x) (map f m)) by (eapply Permutation_in; [exact P|left; auto]). apply in_map_iff in I as (y & Ey & Iy).
      assert (x = y) by (apply Hf; [left; auto|auto|auto]). subst y. apply in_split in Iy as (m1 & m2 & ->).
      rewrite map_app in P. cbn in P. apply Permutation_cons_app_inv in P. rewrite <- map_app in P.
      apply Permutation_cons_app. apply IH; auto. intros a b Ha Hb. apply Hf; [right; auto|]. apply in_app_iff in Hb. apply in_app_iff. cbn. tauto. Qed.
  Lemma translate_nodup p st : g_stencil g = Some st -> is_pos cs p -> NoDup (map norm_simplex (translate p st)).
  Proof. intros E Hp. destruct (gc_stencil g GC st E) as (ND & V). unfold translate. rewrite map_map. apply NoDup_map_inv in ND as ND'.
    assert (S : forall s t, In s st -> In t st -> norm_simplex (map (vadd p) s) = norm_simplex (map (vadd p) t) -> norm_simplex s = norm_simplex t).
    { intros s t Hs Ht Eq. rewrite norm_simplex_spec in *. rewrite Forall_forall in V. pose proof (V s Hs) as Vs. pose proof (V t Ht) as Vt. rewrite Forall_forall in Vs, Vt.
      eapply perm_map_inv; [|exact Eq]. intros x y Hx Hy. apply vadd_inj; unfold is_pos in *; rewrite ?(Vs x Hx), ?(Vt y Hy); auto. }
    clear ND' V E. induction st as [|s st IH]; cbn; [constructor|]. inversion ND as [|? ? N1 N2]; subst. constructor.
    - intros I. apply in_map_iff in I as (t & Et & It). apply N1. apply in_map_iff. exists t. split; auto. apply S; [right; auto|left; auto|auto].
    - apply IH; auto. intros a b Ha Hb. apply S; right; auto. Qed.
  Lemma translate_verts p st : g_stencil g = Some st -> is_pos cs p -> Forall (Forall (is_pos cs)) (map norm_simplex (translate p st)).
  Proof. intros E Hp. destruct (gc_stencil g GC st E) as (_ & V). apply Forall_forall. intros s Hs. apply in_map_iff in Hs as (t & <- & Ht).
    eapply Permutation_Forall; [symmetry; apply norm_simplex_perm|]. unfold translate in Ht. apply in_map_iff in Ht as (u & <- & Hu).
    rewrite Forall_forall in V. pose proof (V u Hu) as Vu. apply Forall_forall. intros x Hx. apply in_map_iff in Hx as (y & <- & Hy).
    rewrite Forall_forall in Vu. specialize (Vu y Hy). unfold is_pos in *. rewrite vadd_len; auto. rewrite Vu. auto. Qed.

  Lemma fresh_pos r : fresh_result cs r -> is_pos cs (pos_of r).
  Proof. destruct r as [m|c a o]; cbn; [auto|]. intros [H ->]. auto. Qed.
  Lemma norm_is_pos p : is_pos cs p -> is_pos cs (normalize_position cs p).
  Proof. unfold is_pos, normalize_position. intros H. rewrite map2_length; auto. Qed.

  Lemma open_set_status i st tasks sx : nth_error tasks i = Some (mk_task sx Pending) ->
    match st with
    | Completed => Permutation (open_simplices tasks) (sx :: open_simplices (set_status i st tasks))
    | _ => open_simplices (set_status i st tasks) = open_simplices tasks
    end.
  Proof. revert i. induction tasks as [|t ts IH]; intros [|i] E; cbn in E; try discriminate.
    - injection E as ->. cbn. destruct st; cbn; auto.
    - specialize (IH i E). cbn. unfold open_simplices in *. cbn. destruct st.
      + destruct (not_completed t); cbn; rewrite IH; auto.
      + destruct (not_completed t); cbn; rewrite IH; auto. apply perm_swap.
      + destruct (not_completed t); cbn; rewrite IH; auto. Qed.
  Lemma open_pending tasks : exceptions tasks = [] -> open_simplices (pending tasks) = open_simplices tasks.
  Proof. unfold exceptions, pending, open_simplices. induction tasks as [|[sx [| |e]] ts IH]; cbn; intros E; auto; [f_equal; auto|discriminate]. Qed.
  Lemma in_open_pending i tasks sx : nth_error tasks i = Some (mk_task sx Pending) -> In sx (open_simplices tasks).
  Proof. intros E. apply nth_error_In in E. unfold open_simplices. apply in_map_iff. exists (mk_task sx Pending). split; auto. apply filter_In. auto. Qed.

  Lemma set_finished_inv (q q' : queue simplex) o : set_finished q o = Ok q' -> q_queued q' = q_queued q /\ q_all q' = q_all q /\
    q_running q' = remove_all o (q_running q) /\ q_needs_saving q' = true /\ In o (q_running q).
  Proof. unfold set_finished. destruct (mem o (q_running q)) eqn:M; [|discriminate]. intros E. injection E as <-. cbn. apply mem_spec in M. auto. Qed.

  (** ** The invariant is preserved *)
  Lemma inv_history x : inv x -> exists rs ps, history cs (g_gap g) (g_cutoff g) rs ps (st_result (fst (fst x))).
  Proof. intros I. do 2 eexists. apply I. Qed.

  Lemma q_inv_nodup_run {A} `{EqDec A} (q : queue A) hist p f : q_inv q hist p f -> NoDup (q_running q).
  Proof. intros I. apply q_inv_running_nodup in I. clear -I. induction (q_running q); cbn in *; [constructor|]. inversion I as [|? ? N1 N2]; subst. constructor; auto. rewrite in_app_iff in N1. tauto. Qed.

  Lemma micro_inv x y : inv x -> micro g x y -> inv y.
  Proof. intros I M. inversion M; subst; destruct I as [IH IQ IN IV IT IP IPos IPA IPD IPR INo IND]; cbn [fst snd] in *.
    - (* skip *) destruct (pop_object_inv _ _ _ H0) as (E1 & E2 & E3 & E4). constructor; cbn [fst snd with_position st_result st_simplex st_position];
        rewrite ?refinements_other by discriminate; proj; auto.
      + rewrite E1 in IPos. inversion IPos; auto.
      + rewrite E2. auto.
      + rewrite E2. intros p. rewrite IPD, E1. rewrite !in_app_iff. cbn. tauto.
      + congruence.
      + intros N. apply INo in N. congruence.
      + rewrite E1 in IND. inversion IND; auto.
    - (* refine *) destruct (pop_object_inv _ _ _ H0) as (E1 & E2 & E3 & E4). rewrite E1 in IPos. inversion IPos as [|? ? Hp Hps]; subst.
      constructor; cbn [fst snd st_result st_simplex st_position]; rewrite ?(refinements_snoc log pos st) by auto.
      + replace (recorded (log ++ [ARefine pos])) with (recorded log) by (proj; auto).
        replace (refined (log ++ [ARefine pos])) with (refined log ++ [pos]) by (proj; auto). rewrite app_assoc. eapply hist_refined; eauto.
      + replace (popped (log ++ [ARefine pos])) with (popped log) by (proj; auto). replace (ended (log ++ [ARefine pos])) with (ended log) by (proj; auto).
        rewrite app_assoc. apply q_inv_add; auto. apply translate_nodup; auto.
      + rewrite app_assoc. apply Forall_app. split; auto. apply Forall_forall. intros s' Hs'. apply in_map_iff in Hs' as (t & <- & _). apply norm_simplex_idem.
      + rewrite app_assoc. apply Forall_app. split; auto. apply translate_verts; auto.
      + rewrite add_objects_running. auto.
      + unfold num_running in *. rewrite add_objects_running. auto.
      + auto.
      + rewrite E2. proj. auto.
      + rewrite E2. intros p. rewrite IPD, E1. proj. rewrite !in_app_iff. cbn. tauto.
      + congruence.
      + congruence.
      + rewrite E1 in IND. inversion IND; auto.
    - (* start *) destruct (pop_running_inv _ _ _ H0) as (E1 & E2 & E3 & E4). destruct (q_inv_pop norm_simplex IQ H0) as (IQ' & NP).
      assert (NR : ~ In sx (q_running (st_simplex s))).
      { intros X. apply NP. eapply Permutation_in; [apply (qi_run IQ)|]. apply in_app_iff. auto. }
      constructor; cbn [fst snd with_simplex st_result st_simplex st_position]; rewrite ?refinements_other by discriminate; auto; try (proj; auto; fail).
      + unfold open_simplices. rewrite filter_app, map_app. cbn. rewrite E3. unfold set_add. rewrite (proj2 (mem_false sx (q_running (st_simplex s))) NR).
        apply Permutation_app_tail. exact IT.
      + unfold num_running in *. rewrite E3. unfold set_add. rewrite (proj2 (mem_false sx (q_running (st_simplex s))) NR). rewrite app_length. cbn. lia.
    - (* discard *) destruct (pop_running_inv _ _ _ H0) as (E1 & E2 & E3 & E4). destruct (q_inv_pop norm_simplex IQ H0) as (IQ' & NP). pose proof (q_inv_finish sx IQ' H2) as IQ''.
      destruct (set_finished_inv _ _ _ H2) as (F1 & F2 & F3 & F4 & F5).
      assert (NR : ~ In sx (q_running (st_simplex s))).
      { intros X. apply NP. eapply Permutation_in; [apply (qi_run IQ)|]. apply in_app_iff. auto. }
      assert (R : q_running q' = q_running (st_simplex s)).
      { rewrite F3, E3. unfold set_add. rewrite (proj2 (mem_false sx (q_running (st_simplex s))) NR). unfold remove_all. rewrite filter_app. cbn. rewrite eqb_refl. cbn. rewrite app_nil_r.
        transitivity (filter (fun _ : simplex => true) (q_running (st_simplex s))); [|clear; induction (q_running (st_simplex s)); cbn; congruence].
        apply filter_ext_in. intros a Ha. rewrite (proj2 (eqb_false sx a)); auto. intros ->. contradiction. }
      constructor; cbn [fst snd with_simplex st_result st_simplex st_position]; rewrite ?refinements_other by discriminate; auto; try (proj; auto; fail).
      + rewrite R. auto.
      + unfold num_running in *. rewrite R. auto.
    - (* record *) destruct (set_finished_inv _ _ _ H4) as (F1 & F2 & F3 & F4 & F5). pose proof (q_inv_finish sx IQ H4) as IQ'.
      pose proof (fresh_pos _ H0) as Hp.
      assert (Hh : history cs (g_gap g) (g_cutoff g) ((rs0 ++ map snd (recorded log)) ++ [r]) (ps0 ++ refined log) c) by (eapply hist_add; eauto).
      assert (Ecs : c_cs c = cs). { destruct (hist_classification (gc_box g GC) Hh) as (_ & _ & _ & E & _). exact E. }
      assert (B : forall log', (log' = log ++ [ARecord sx r] \/ exists p, log' = (log ++ [ARecord sx r]) ++ [AQueue p]) ->
        map snd (recorded log') = map snd (recorded log) ++ [r] /\ refined log' = refined log /\ skipped log' = skipped log /\
        popped log' = popped log /\ ended log' = ended log ++ [sx] /\ refinements g log' = refinements g log).
      { intros log' [->|(p & ->)]; rewrite ?refinements_other by discriminate; proj; rewrite ?map_app; auto 10. }
      assert (RN : Permutation (open_simplices (set_status i Completed tasks)) (q_running q)).
      { rewrite F3. pose proof (open_set_status i Completed tasks sx H) as P. cbn in P.
        pose proof (@Permutation_remove_all _ _ sx _ (q_inv_nodup_run _ _ _ _ IQ) F5) as P2. rewrite IT in P. rewrite P2 in P. apply Permutation_cons_inv in P. symmetry. auto. }
      assert (PAR : (num_running q <= g_parallel g)%nat).
      { unfold num_running in *. rewrite F3. unfold remove_all. etransitivity; [|exact IP]. clear. induction (q_running (st_simplex s)); cbn; auto. destruct (negb _); cbn; lia. }
      unfold after_result. destruct (b && d)%bool eqn:BD; cbn [fst snd].
      + destruct (B _ (or_intror (ex_intro _ (normalize_position (c_cs c) (pos_of r)) eq_refl))) as (B1 & B2 & B3 & B4 & B5 & B6).
        constructor; cbn [fst snd st_result st_simplex st_position]; rewrite ?B1, ?B2, ?B3, ?B4, ?B5, ?B6, ?app_assoc; auto.
        * rewrite add_objects_queued. apply Forall_app. split; auto. apply Forall_forall. intros p Hpp. apply filter_In in Hpp as [[<- |[]] _].
          rewrite Ecs. apply norm_is_pos; auto.
        * intros p. rewrite add_objects_all, IPA. proj. rewrite !in_app_iff. cbn. unfold norm_pos. tauto.
        * intros p. rewrite add_objects_all, add_objects_queued, in_app_iff, filter_In, IPD. cbn [map In]. split; [|intuition auto].
          intros [X|X]; [tauto|]. destruct (mem p (q_all (st_position s))) eqn:Mp.
          -- apply mem_spec in Mp. apply IPD in Mp. tauto.
          -- left. right. split; [exact X|]. reflexivity.
        * rewrite add_objects_running. auto.
        * intros N. apply H3 in N. subst d. rewrite andb_false_r in BD. discriminate.
        * rewrite add_objects_queued. cbn [map filter]. destruct (mem _ _) eqn:Mq; cbn [negb]; [rewrite app_nil_r; auto|].
          eapply Permutation_NoDup; [apply Permutation_cons_append|]. constructor; auto. intros X. apply mem_false in Mq. apply Mq. apply IPD. auto.
      + destruct (B _ (or_introl eq_refl)) as (B1 & B2 & B3 & B4 & B5 & B6).
        constructor; cbn [fst snd st_result st_simplex st_position]; rewrite ?B1, ?B2, ?B3, ?B4, ?B5, ?B6, ?app_assoc; auto.
        proj. auto.
    - (* fail *) constructor; cbn [fst snd]; auto. pose proof (open_set_status i (Failed e) tasks sx H) as P. cbn in P. rewrite P. auto.
    - (* drop *) constructor; cbn [fst snd]; auto. rewrite open_pending; auto. Qed.

  Lemma saved_inv s tasks log : inv (s, tasks, log) -> inv (clear_needs_saving s, tasks, log).
  Proof. intros [IH IQ IN IV IT IP IPos IPA IPD IPR INo IND]. cbn [fst snd] in *.
    constructor; cbn [fst snd clear_needs_saving st_result st_simplex st_position set_q_needs_saving q_queued q_all q_running num_running]; auto.
      + apply hist_saved. auto.
      + destruct IQ. constructor; auto. Qed.

  Lemma micros_inv x y : inv x -> micros g x y -> inv y.
  Proof. intros I M. induction M; auto. apply IHM. eapply micro_inv; eauto. Qed.
End Inv.
