(** The controller in double precision as a sequence of elementary steps, and its basic invariant
    (compare ControllerFacts.v and ControllerSteps.v). *)
From Verif Require Import Base BaseFacts CoordSys CellList Queue QueueFacts SpecQueue.
From Coq Require Import ZArith Reals.
From Flocq Require Import Core BinarySingleNaN.
From Verif Require Import Float FloatFacts FloatVector NelderMead FloatMin FloatCell SpecFloatCell FloatCellNum FloatCellFacts PropFloatCell FloatCheck PropFloatCheck FloatController SpecFloatSearch.
Open Scope list_scope.

(** ** Projections *)
Definition popped (l : list faction) : list fsimplex := flat_map (fun a => match a with FStart s | FDiscard s => [s] | _ => [] end) l.
Definition ended (l : list faction) : list fsimplex := flat_map (fun a => match a with FRecord s _ | FDiscard s => [s] | _ => [] end) l.
Lemma proj_app {A} (f : faction -> list A) l m : flat_map f (l ++ m) = flat_map f l ++ flat_map f m.
Proof. apply flat_map_app. Qed.
Ltac proj := unfold popped, ended, fstarted, fdiscarded, frecorded, frefined, fskipped, fto_refine in *; rewrite ?proj_app in *; cbn [flat_map] in *; rewrite ?app_nil_r in *.

Definition mstate : Type := fstate * list ftask * list faction.

(** the state after a result was processed *)
Definition after_result (g : fconfig) (s : fstate) (log : list faction) (sx : fsimplex) (r : dmin_result) (c : fcontainer) (b queue_it : bool) (q : queue fsimplex)
  : fstate * list faction :=
  let pos := map2 (fnormalize1 (fc_per c)) (fc_boxes c) (dr_pos r) in
  if (b && queue_it)%bool
  then (mk_fstate c q (add_objects norm_fpos (fs_position s) [pos]), (log ++ [FRecord sx r]) ++ [FQueue (norm_fpos pos)])
  else (mk_fstate c q (fs_position s), log ++ [FRecord sx r]).

Inductive micro (g : fconfig) : mstate -> mstate -> Prop :=
| m_skip s tasks log pq pos :
    has_queued (fs_simplex s) = false -> pop_object (fs_position s) = Ok (pq, pos) -> fg_recheck g = true ->
    fcheck_pos_refinement (fs_result s) (fg_cutoff g) (fg_count_cutoff g) pos = Ok false ->
    micro g (s, tasks, log) (with_fposition s pq, tasks, log ++ [FSkip pos])
| m_refine s tasks log pq pos st c :
    has_queued (fs_simplex s) = false -> pop_object (fs_position s) = Ok (pq, pos) ->
    (fg_recheck g = true -> fcheck_pos_refinement (fs_result s) (fg_cutoff g) (fg_count_cutoff g) pos = Ok true) ->
    fg_stencil g = Some st -> fset_refined (fs_result s) pos = Ok c ->
    micro g (s, tasks, log)
      (mk_fstate c (add_objects norm_fsimplex (fs_simplex s) (ftranslate pos st)) pq, tasks, log ++ [FRefine pos])
| m_start s tasks log q sx :
    (num_running (fs_simplex s) < fg_parallel g)%nat -> pop_running (fs_simplex s) = Ok (q, sx) ->
    fcheck_simplex (fs_result s) (fg_cutoff g) (fg_simplex_cutoff g) sx = Ok true ->
    micro g (s, tasks, log) (with_fsimplex s q, tasks ++ [mk_ftask sx FPending], log ++ [FStart sx])
| m_discard s tasks log q sx q' :
    (num_running (fs_simplex s) < fg_parallel g)%nat -> pop_running (fs_simplex s) = Ok (q, sx) ->
    fcheck_simplex (fs_result s) (fg_cutoff g) (fg_simplex_cutoff g) sx = Ok false -> set_finished q sx = Ok q' ->
    micro g (s, tasks, log) (with_fsimplex s q', tasks, log ++ [FDiscard sx])
| m_record s tasks log i r sx c b d q :
    nth_error tasks i = Some (mk_ftask sx FPending) -> fwithin 9 (fg_boxes g) (dr_pos r) ->
    fadd_result (fs_result s) r = Ok (c, b) ->
    (b = true -> fg_stencil g <> None -> fcheck_pos_refinement c (fg_cutoff g) 0 (map2 (fnormalize1 (fc_per c)) (fc_boxes c) (dr_pos r)) = Ok d) ->
    (fg_stencil g = None -> d = false) ->
    set_finished (fs_simplex s) sx = Ok q ->
    micro g (s, tasks, log) (fst (after_result g s log sx r c b d q), fset_status i FCompleted tasks, snd (after_result g s log sx r c b d q))
| m_fail s tasks log i e sx :
    nth_error tasks i = Some (mk_ftask sx FPending) ->
    micro g (s, tasks, log) (s, fset_status i (FFailed e) tasks, log)
| m_drop s tasks log : fexceptions tasks = [] -> micro g (s, tasks, log) (s, fpending tasks, log).

Inductive micros (g : fconfig) : mstate -> mstate -> Prop :=
| ms_refl x : micros g x x
| ms_step x y z : micro g x y -> micros g y z -> micros g x z.
Lemma micros_trans g x y z : micros g x y -> micros g y z -> micros g x z.
Proof. induction 1; auto. intros. econstructor; eauto. Qed.
Lemma micros_one g x y : micro g x y -> micros g x y.
Proof. intros. econstructor; eauto. constructor. Qed.

Definition not_completed (t : ftask) : bool := match ft_status t with FCompleted => false | _ => true end.
Definition open_simplices (tasks : list ftask) : list fsimplex := map ft_simplex (filter not_completed tasks).

Section Inv.
  Variables (g : fconfig) (rs0 : list dmin_result) (ps0 : list fpoint) (Q0 : list fsimplex) (P0 : list fpoint).
  Hypothesis GC : good_fconfig g.
  Let boxes := fg_boxes g.
  Let per := fg_per g.

  Record inv (x : mstate) : Prop := {
    i_hist : reliable per boxes (fg_gap g) (fg_cutoff g) (rs0 ++ map snd (frecorded (snd x))) (ps0 ++ frefined (snd x)) (fs_result (fst (fst x)));
    i_q : q_inv (fs_simplex (fst (fst x))) (Q0 ++ frefinements g (snd x)) (popped (snd x)) (ended (snd x));
    i_verts : Forall (Forall (good_position boxes)) (Q0 ++ frefinements g (snd x));
    i_tasks : Permutation (open_simplices (snd (fst x))) (q_running (fs_simplex (fst (fst x))));
    i_par : (num_running (fs_simplex (fst (fst x))) <= fg_parallel g)%nat;
    i_pos : Forall (refinable per boxes) (q_queued (fs_position (fst (fst x))));
    i_pall : forall p, In p (q_all (fs_position (fst (fst x)))) <-> In p (P0 ++ fto_refine (snd x));
    i_pdone : forall p, In p (q_all (fs_position (fst (fst x)))) <-> In p (q_queued (fs_position (fst (fst x)))) \/ In p (frefined (snd x)) \/ In p (fskipped (snd x));
    i_prun : q_running (fs_position (fst (fst x))) = [];
    i_none : fg_stencil g = None -> q_queued (fs_position (fst (fst x))) = [];
    i_pnd : NoDup (frefined (snd x) ++ q_queued (fs_position (fst (fst x))))
  }.

  (** ** Facts about single operations *)
  Lemma pop_object_inv {A} (q : queue A) q' o : pop_object q = Ok (q', o) ->
    q_queued q = o :: q_queued q' /\ q_all q' = q_all q /\ q_running q' = q_running q /\ q_needs_saving q' = q_needs_saving q.
  Proof. unfold pop_object. destruct (q_queued q) as [|x l]; [discriminate|]. intros E. injection E as <- <-. auto. Qed.
  Lemma pop_running_inv {A} `{EqDec A} (q : queue A) q' o : pop_running q = Ok (q', o) ->
    q_queued q = o :: q_queued q' /\ q_all q' = q_all q /\ q_running q' = set_add o (q_running q) /\ q_needs_saving q' = q_needs_saving q.
  Proof. unfold pop_running. destruct (pop_object q) as [[q1 o1]|] eqn:E; [|discriminate]. apply pop_object_inv in E as (E1 & E2 & E3 & E4).
    cbn. intros X. injection X as <- <-. cbn. rewrite E3. auto. Qed.

  Lemma refinements_snoc log p st : fg_stencil g = Some st -> frefinements g (log ++ [FRefine p]) = frefinements g log ++ map norm_fsimplex (ftranslate p st).
  Proof. intros E. unfold frefinements. rewrite E. proj. rewrite flat_map_app. cbn. rewrite app_nil_r. reflexivity. Qed.
  Lemma refinements_other log a : (forall p, a <> FRefine p) -> frefinements g (log ++ [a]) = frefinements g log.
  Proof. intros H. unfold frefinements. destruct (fg_stencil g); auto. proj. f_equal. destruct a; auto; rewrite ?app_nil_r; auto. exfalso. eapply H. reflexivity. Qed.

  Lemma within_le n m p : (n <= m)%Z -> Forall good_box boxes -> fwithin n boxes p -> fwithin m boxes p.
  Proof. intros L Gb H. unfold fwithin in *. revert Gb. induction H as [|b x bs p (F & B) H IH]; intros Gb; inversion Gb as [|? ? G1 G2]; subst; constructor; auto. split; auto.
    eapply Rle_trans; [exact B|]. apply Rmult_le_compat_r; [left; apply (s_pos b); auto|apply bpow_le; auto]. Qed.
  Lemma fresh_pos p : Forall good_box boxes -> fwithin 9 boxes p -> good_position boxes p.
  Proof. intros Gb H. apply (within_le 9 10); auto. lia. Qed.
  Lemma refinable_good p : Forall good_box boxes -> refinable per boxes p -> good_refined per boxes p.
  Proof. unfold refinable, good_refined. intros Gb H. destruct per; auto. apply fresh_pos; auto. Qed.
  Lemma drop_sign_val x : B2R (drop_sign x) = B2R x /\ is_finite (drop_sign x) = is_finite x.
  Proof. unfold drop_sign. destruct x as [[|]|[|]| |[|] m e H]; cbn; auto. Qed.
  Lemma refinable_norm p : refinable per boxes p -> refinable per boxes (norm_fpos p).
  Proof. unfold refinable, norm_fpos, fwithin. destruct per; intros H; (induction H as [|b x bs p Hx H IH]; cbn [map]; constructor; auto); unfold in_box in *; destruct (drop_sign_val x) as (-> & ->); auto. Qed.
  Lemma good_drop p : good_position boxes p -> good_position boxes (map drop_sign p).
  Proof. unfold good_position. intros H. induction H as [|b x bs p Hx H IH]; cbn [map]; constructor; auto; unfold good_coord in *; destruct (drop_sign_val x) as (-> & ->); auto. Qed.
  Lemma norm_verts s : Forall (good_position boxes) s -> Forall (good_position boxes) (norm_fsimplex s).
  Proof. intros H. eapply Permutation_Forall; [symmetry; apply sort_perm|]. apply Forall_forall. intros x Hx. apply in_map_iff in Hx as (y & <- & Hy). rewrite Forall_forall in H. apply good_drop. auto. Qed.
  Lemma norm_refinable r : Forall good_box boxes -> fwithin 9 boxes r -> refinable per boxes (norm_fpos (map2 (fnormalize1 per) boxes r)).
  Proof. intros Gb H. apply refinable_norm. unfold refinable. destruct per eqn:Ep.
    - set (r0 := {| dr_pos := r; dr_value := B754_nan; dr_success := true; dr_status := 0; dr_num_fev := 0; dr_num_iter := 0; dr_simplex_history := []; dr_fun_history := None |}).
      exact (C62_stored_in_box true boxes r0 Gb (fresh_pos r Gb H)).
    - replace (map2 (fnormalize1 false) boxes r) with r; auto. clear - H. unfold fwithin in H. induction H as [|b x bs r _ _ IH]; cbn [map2]; [reflexivity|]. rewrite <- IH. reflexivity. Qed.
  Lemma rel_total x : inv x -> forall r, good_position boxes (dr_pos r) -> exists c', fadd_result (fs_result (fst (fst x))) r = Ok (c', is_fnode (fg_gap g) r) /\
    reliable per boxes (fg_gap g) (fg_cutoff g) ((rs0 ++ map snd (frecorded (snd x))) ++ [r]) (ps0 ++ frefined (snd x)) c'.
  Proof. intros I r Hr. pose proof (i_hist _ I) as (A1 & A2 & A3 & A4 & A5 & A6 & A7). destruct (C62_total per boxes (fg_gap g) (fg_cutoff g) _ _ A1 A5 A6) as (_ & T). destruct (T _ A7) as (T1 & _). destruct (T1 r Hr) as (c' & E).
    exists c'. split; auto. repeat (split; auto). - apply Forall_app; auto. - eapply fh_add; eauto. Qed.
  Lemma rel_refined x p : inv x -> refinable per boxes p -> exists c', fset_refined (fs_result (fst (fst x))) p = Ok c'.
  Proof. intros I Hp. pose proof (i_hist _ I) as (A1 & A2 & A3 & A4 & A5 & A6 & A7). destruct (C62_total per boxes (fg_gap g) (fg_cutoff g) _ _ A1 A5 A6) as (_ & T). destruct (T _ A7) as (_ & T2 & _). apply T2. apply refinable_good; auto. Qed.
  Lemma rel_refine x p c : inv x -> refinable per boxes p -> fset_refined (fs_result (fst (fst x))) p = Ok c ->
    reliable per boxes (fg_gap g) (fg_cutoff g) (rs0 ++ map snd (frecorded (snd x))) ((ps0 ++ frefined (snd x)) ++ [p]) c.
  Proof. intros I Hp E. pose proof (i_hist _ I) as (A1 & A2 & A3 & A4 & A5 & A6 & A7). repeat (split; auto). - apply Forall_app; split; auto. constructor; auto. apply refinable_good; auto. - eapply fh_refined; eauto. Qed.
  Lemma rel_boxes rs ps c : reliable per boxes (fg_gap g) (fg_cutoff g) rs ps c -> fc_per c = per /\ fc_boxes c = boxes.
  Proof. intros (A1 & A2 & A3 & A4 & A5 & A6 & A7). destruct (history_good per boxes (fg_gap g) (fg_cutoff g) A1 _ _ _ A7 A5 A6) as (E1 & E2 & _). auto. Qed.

  Lemma open_set_status i st tasks sx : nth_error tasks i = Some (mk_ftask sx FPending) ->
    match st with
    | FCompleted => Permutation (open_simplices tasks) (sx :: open_simplices (fset_status i st tasks))
    | _ => open_simplices (fset_status i st tasks) = open_simplices tasks
    end.
  Proof. revert i. induction tasks as [|t ts IH]; intros [|i] E; cbn in E; try discriminate.
    - injection E as ->. cbn. destruct st; cbn; auto.
    - specialize (IH i E). cbn. unfold open_simplices in *. cbn. destruct st.
      + destruct (not_completed t); cbn; rewrite IH; auto.
      + destruct (not_completed t); cbn; rewrite IH; auto. apply perm_swap.
      + destruct (not_completed t); cbn; rewrite IH; auto. Qed.
  Lemma open_pending tasks : fexceptions tasks = [] -> open_simplices (fpending tasks) = open_simplices tasks.
  Proof. unfold fexceptions, fpending, open_simplices. induction tasks as [|[sx [| |e]] ts IH]; cbn; intros E; auto; [f_equal; auto|discriminate]. Qed.
  Lemma in_open_pending i tasks sx : nth_error tasks i = Some (mk_ftask sx FPending) -> In sx (open_simplices tasks).
  Proof. intros E. apply nth_error_In in E. unfold open_simplices. apply in_map_iff. exists (mk_ftask sx FPending). split; auto. apply filter_In. auto. Qed.

  Lemma set_finished_inv (q q' : queue fsimplex) o : set_finished q o = Ok q' -> q_queued q' = q_queued q /\ q_all q' = q_all q /\
    q_running q' = remove_all o (q_running q) /\ q_needs_saving q' = true /\ In o (q_running q).
  Proof. unfold set_finished. destruct (mem o (q_running q)) eqn:M; [|discriminate]. intros E. injection E as <-. cbn. apply mem_spec in M. auto. Qed.

  (** ** The invariant is preserved *)
  Lemma q_inv_nodup_run {A} `{EqDec A} (q : queue A) hist p f : q_inv q hist p f -> NoDup (q_running q).
  Proof. intros I. apply q_inv_running_nodup in I. clear -I. induction (q_running q); cbn in *; [constructor|]. inversion I as [|? ? N1 N2]; subst. constructor; auto. rewrite in_app_iff in N1. tauto. Qed.

  Lemma micro_inv x y : inv x -> micro g x y -> inv y.
  Proof. intros I M. inversion M; subst; pose proof I as I0; destruct I as [IH IQ IV IT IP IPos IPA IPD IPR INo IND]; cbn [fst snd] in *.
    - (* skip *) destruct (pop_object_inv _ _ _ H0) as (E1 & E2 & E3 & E4). constructor; cbn [fst snd with_fposition fs_result fs_simplex fs_position];
        rewrite ?refinements_other by discriminate; proj; auto.
      + rewrite E1 in IPos. inversion IPos; auto.
      + rewrite E2. auto.
      + rewrite E2. intros p. rewrite IPD, E1. rewrite !in_app_iff. cbn. tauto.
      + congruence.
      + intros N. apply INo in N. congruence.
      + rewrite E1 in IND. apply NoDup_remove_1 in IND. auto.
    - (* refine *) destruct (pop_object_inv _ _ _ H0) as (E1 & E2 & E3 & E4). rewrite E1 in IPos. inversion IPos as [|? ? Hp Hps]; subst.
      constructor; cbn [fst snd fs_result fs_simplex fs_position]; rewrite ?(refinements_snoc log pos st) by auto.
      + replace (frecorded (log ++ [FRefine pos])) with (frecorded log) by (proj; auto).
        replace (frefined (log ++ [FRefine pos])) with (frefined log ++ [pos]) by (proj; auto). rewrite app_assoc. apply (rel_refine _ _ _ I0); auto.
      + replace (popped (log ++ [FRefine pos])) with (popped log) by (proj; auto). replace (ended (log ++ [FRefine pos])) with (ended log) by (proj; auto).
        rewrite app_assoc. apply q_inv_add; auto. apply (gf_stencil g GC st pos); auto.
      + rewrite app_assoc. apply Forall_app. split; auto. apply Forall_forall. intros v Hv. apply in_map_iff in Hv as (w & <- & Hw). apply norm_verts. destruct (gf_stencil g GC st pos) as (_ & V); auto. rewrite Forall_forall in V. auto.
      + rewrite add_objects_running. auto.
      + unfold num_running in *. rewrite add_objects_running. auto.
      + auto.
      + rewrite E2. proj. auto.
      + rewrite E2. intros p. rewrite IPD, E1. proj. rewrite !in_app_iff. cbn. tauto.
      + congruence.
      + congruence.
      + rewrite E1 in IND. proj. rewrite <- app_assoc. auto.
    - (* start *) destruct (pop_running_inv _ _ _ H0) as (E1 & E2 & E3 & E4). destruct (q_inv_pop norm_fsimplex IQ H0) as (IQ' & NP).
      assert (NR : ~ In sx (q_running (fs_simplex s))).
      { intros X. apply NP. eapply Permutation_in; [apply (qi_run IQ)|]. apply in_app_iff. auto. }
      constructor; cbn [fst snd with_fsimplex fs_result fs_simplex fs_position]; rewrite ?refinements_other by discriminate; auto; try (proj; auto; fail).
      + unfold open_simplices. rewrite filter_app, map_app. cbn. rewrite E3. unfold set_add. rewrite (proj2 (mem_false sx (q_running (fs_simplex s))) NR).
        apply Permutation_app_tail. exact IT.
      + unfold num_running in *. rewrite E3. unfold set_add. rewrite (proj2 (mem_false sx (q_running (fs_simplex s))) NR). rewrite app_length. cbn. lia.
    - (* discard *) destruct (pop_running_inv _ _ _ H0) as (E1 & E2 & E3 & E4). destruct (q_inv_pop norm_fsimplex IQ H0) as (IQ' & NP). pose proof (q_inv_finish sx IQ' H2) as IQ''.
      destruct (set_finished_inv _ _ _ H2) as (F1 & F2 & F3 & F4 & F5).
      assert (NR : ~ In sx (q_running (fs_simplex s))).
      { intros X. apply NP. eapply Permutation_in; [apply (qi_run IQ)|]. apply in_app_iff. auto. }
      assert (R : q_running q' = q_running (fs_simplex s)).
      { rewrite F3, E3. unfold set_add. rewrite (proj2 (mem_false sx (q_running (fs_simplex s))) NR). unfold remove_all. rewrite filter_app. cbn. rewrite eqb_refl. cbn. rewrite app_nil_r.
        transitivity (filter (fun _ : fsimplex => true) (q_running (fs_simplex s))); [|clear; induction (q_running (fs_simplex s)); cbn; congruence].
        apply filter_ext_in. intros a Ha. rewrite (proj2 (BaseFacts.eqb_false sx a)); auto. intros ->. contradiction. }
      constructor; cbn [fst snd with_fsimplex fs_result fs_simplex fs_position]; rewrite ?refinements_other by discriminate; auto; try (proj; auto; fail).
      + rewrite R. auto.
      + unfold num_running in *. rewrite R. auto.
    - (* record *) destruct (set_finished_inv _ _ _ H4) as (F1 & F2 & F3 & F4 & F5). pose proof (q_inv_finish sx IQ H4) as IQ'.
      pose proof (fresh_pos _ (gf_boxes g GC) H0) as Hp.
      destruct (rel_total _ I0 r Hp) as (c' & Ec & Hh). cbn [fst snd] in Ec, Hh. rewrite H1 in Ec. injection Ec as <- Eb. destruct (rel_boxes _ _ _ Hh) as (Ep & Ebx).
      assert (B : forall log', (log' = log ++ [FRecord sx r] \/ exists p, log' = (log ++ [FRecord sx r]) ++ [FQueue p]) ->
        map snd (frecorded log') = map snd (frecorded log) ++ [r] /\ frefined log' = frefined log /\ fskipped log' = fskipped log /\
        popped log' = popped log /\ ended log' = ended log ++ [sx] /\ frefinements g log' = frefinements g log).
      { intros log' [->|(p & ->)]; rewrite ?refinements_other by discriminate; proj; rewrite ?map_app; auto 10. }
      assert (RN : Permutation (open_simplices (fset_status i FCompleted tasks)) (q_running q)).
      { rewrite F3. pose proof (open_set_status i FCompleted tasks sx H) as P. cbn in P.
        pose proof (@Permutation_remove_all _ _ sx _ (q_inv_nodup_run _ _ _ _ IQ) F5) as P2. rewrite IT in P. rewrite P2 in P. apply Permutation_cons_inv in P. symmetry. auto. }
      assert (PAR : (num_running q <= fg_parallel g)%nat).
      { unfold num_running in *. rewrite F3. unfold remove_all. etransitivity; [|exact IP]. clear. induction (q_running (fs_simplex s)); cbn; auto. destruct (negb _); cbn; lia. }
      unfold after_result. destruct (b && d)%bool eqn:BD; cbn [fst snd].
      + destruct (B _ (or_intror (ex_intro _ (norm_fpos (map2 (fnormalize1 (fc_per c)) (fc_boxes c) (dr_pos r))) eq_refl))) as (B1 & B2 & B3 & B4 & B5 & B6).
        constructor; cbn [fst snd fs_result fs_simplex fs_position]; rewrite ?B1, ?B2, ?B3, ?B4, ?B5, ?B6, ?app_assoc; auto.
        * rewrite add_objects_queued. apply Forall_app. split; auto. apply Forall_forall. intros p Hpp. apply filter_In in Hpp as [[<- |[]] _].
          rewrite Ep, Ebx. apply norm_refinable; auto. apply (gf_boxes g GC).
        * intros p. rewrite add_objects_all, IPA. proj. rewrite !in_app_iff. cbn. tauto.
        * intros p. rewrite add_objects_all, add_objects_queued, in_app_iff, filter_In, IPD. cbn [map In]. split; [|intuition auto].
          intros [X|X]; [tauto|]. destruct (mem p (q_all (fs_position s))) eqn:Mp.
          -- apply mem_spec in Mp. apply IPD in Mp. tauto.
          -- left. right. split; [exact X|]. reflexivity.
        * rewrite add_objects_running. auto.
        * intros N. apply H3 in N. subst d. rewrite andb_false_r in BD. discriminate.
        * rewrite add_objects_queued. cbn [map filter]. destruct (mem _ _) eqn:Mq; cbn [negb]; [rewrite app_nil_r; auto|].
          rewrite app_assoc. eapply Permutation_NoDup; [apply Permutation_cons_append|]. constructor; auto. intros X. apply mem_false in Mq. apply Mq. apply IPD. rewrite in_app_iff in X. tauto.
      + destruct (B _ (or_introl eq_refl)) as (B1 & B2 & B3 & B4 & B5 & B6).
        constructor; cbn [fst snd fs_result fs_simplex fs_position]; rewrite ?B1, ?B2, ?B3, ?B4, ?B5, ?B6, ?app_assoc; auto.
        proj. auto.
    - (* fail *) constructor; cbn [fst snd]; auto. pose proof (open_set_status i (FFailed e) tasks sx H) as P. cbn in P. rewrite P. auto.
    - (* drop *) constructor; cbn [fst snd]; auto. rewrite open_pending; auto. Qed.

  Lemma micros_inv x y : inv x -> micros g x y -> inv y.
  Proof. intros I M. induction M; auto. apply IHM. eapply micro_inv; eauto. Qed.
End Inv.
