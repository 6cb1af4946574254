(** Start states of searches in double precision: fresh and restarted. *)
From Verif Require Import Base BaseFacts CoordSys CellList CellListFacts Queue QueueFacts SpecQueue.
From Coq Require Import ZArith Reals Permutation.
From Flocq Require Import Core BinarySingleNaN.
From Verif Require Import Float FloatFacts FloatVector NelderMead FloatMin FloatCell SpecFloatCell FloatCellNum FloatCellFacts PropFloatCell FloatCheck PropFloatCheck FloatController SpecFloatSearch FloatSearchFacts FloatSearchSteps FloatSearchLog FloatSearchProps.
From Coq Require Import Lra.
Open Scope list_scope.

(** ** normalisation of queued objects *)
Lemma drop_sign_idem x : drop_sign (drop_sign x) = drop_sign x.
Proof. unfold drop_sign. destruct (Beqb x (B754_zero false)) eqn:E; [reflexivity|]. rewrite E. reflexivity. Qed.
Lemma norm_fpos_idem p : norm_fpos (norm_fpos p) = norm_fpos p.
Proof. unfold norm_fpos. rewrite map_map. apply map_ext. apply drop_sign_idem. Qed.

Section LocalSort.
  Context {A : Type} (leb : A -> A -> bool) (D : A -> Prop).
  Hypothesis total : forall x y, D x -> D y -> leb x y = false -> leb y x = true.
  Fixpoint lsorted (l : list A) : Prop :=
    match l with x :: (y :: _) as l' => leb x y = true /\ lsorted l' | _ => True end.
  Lemma lsorted_tail x l : lsorted (x :: l) -> lsorted l.
  Proof. destruct l; cbn; tauto. Qed.
  Lemma insert_hd x y l : leb y x = true -> lsorted (y :: l) -> lsorted (insert_by leb x l) -> lsorted (y :: insert_by leb x l).
  Proof. intros L S I. destruct l as [|z l]; cbn in *; auto. destruct (leb x z); cbn in *; tauto. Qed.
  Lemma insert_lsorted x l : D x -> Forall D l -> lsorted l -> lsorted (insert_by leb x l).
  Proof. intros Dx F. induction F as [|y l Dy F IH]; intros S; cbn; auto. destruct (leb x y) eqn:E; [cbn; auto|].
    apply insert_hd; auto. apply IH. eapply lsorted_tail; eauto. Qed.
  Lemma sort_lsorted l : Forall D l -> lsorted (sort_by leb l).
  Proof. induction 1 as [|x l Dx F IH]; cbn; auto. apply insert_lsorted; auto. eapply Permutation_Forall; [symmetry; apply sort_perm|]; auto. Qed.
  Lemma lsorted_fixed l : lsorted l -> sort_by leb l = l.
  Proof. induction l as [|x l IH]; intros S; auto. change (sort_by leb (x :: l)) with (insert_by leb x (sort_by leb l)). rewrite IH by (eapply lsorted_tail; eauto). destruct l as [|y l]; cbn in *; auto. destruct S as [-> _]. reflexivity. Qed.
  Lemma sort_twice l : Forall D l -> sort_by leb (sort_by leb l) = sort_by leb l.
  Proof. intros. apply lsorted_fixed, sort_lsorted; auto. Qed.
End LocalSort.

Definition plain (x : double) : Prop := is_finite x = true /\ drop_sign x = x.
Lemma plain_total x y : plain x -> plain y -> x <> y -> flt x y = false -> flt y x = true.
Proof. intros (Fx & Px) (Fy & Py) N L. unfold flt in *. rewrite Bltb_correct in * by auto. apply Rlt_bool_true. destruct (Rlt_bool_spec (B2R x) (B2R y)) as [|H]; [discriminate|].
  destruct H as [H|H]; auto. exfalso. apply N. rewrite <- Px, <- Py. clear N Px Py L.
  unfold drop_sign. rewrite !Beqb_correct by auto. rewrite H. change (B2R (B754_zero false)) with 0%R. destruct (Req_bool_spec (B2R x) 0) as [E|E]; auto.
  apply B2R_inj; auto; apply is_finite_strict_B2R; auto; congruence. Qed.
Lemma lex_total x y : Forall plain x -> Forall plain y -> lex_leb flt x y = false -> lex_leb flt y x = true.
Proof. intros Fx. revert y. induction Fx as [|a x Pa Fx IH]; intros y Fy E; cbn in E; [discriminate|]. destruct y as [|b y]; cbn; auto. inversion Fy; subst.
  destruct (eq_dec a b) as [->|N].
  - rewrite BaseFacts.eqb_refl in *. apply IH; auto.
  - rewrite (proj2 (BaseFacts.eqb_false a b)) in E by auto. rewrite (proj2 (BaseFacts.eqb_false b a)) by auto. apply plain_total; auto. Qed.
Lemma norm_fsimplex_idem s : Forall (Forall (fun x => is_finite x = true)) s -> norm_fsimplex (norm_fsimplex s) = norm_fsimplex s.
Proof. intros F. unfold norm_fsimplex.
  assert (P : Forall (Forall plain) (map (map drop_sign) s)).
  { apply Forall_forall. intros v' Hv. apply in_map_iff in Hv as (v & <- & Hv). apply Forall_forall. intros x' Hx. apply in_map_iff in Hx as (x & <- & Hx). split; [|apply drop_sign_idem].
    rewrite (proj2 (drop_sign_val x)). rewrite Forall_forall in F. specialize (F v Hv). rewrite Forall_forall in F. auto. }
  assert (E : map (map drop_sign) (sort_by (lex_leb flt) (map (map drop_sign) s)) = sort_by (lex_leb flt) (map (map drop_sign) s)).
  { rewrite <- (map_id (sort_by _ _)) at 2. apply map_ext_in. intros v Hv. apply (Permutation_in _ (sort_perm _ _)) in Hv. rewrite <- (map_id v) at 2. apply map_ext_in. intros x Hx.
    rewrite Forall_forall in P. specialize (P v Hv). rewrite Forall_forall in P. apply (P x Hx). }
  rewrite E. apply (sort_twice (lex_leb flt) (Forall plain)); auto. intros. apply lex_total; auto. Qed.
Lemma good_verts_finite boxes s : Forall (good_position boxes) s -> Forall (Forall (fun x => is_finite x = true)) s.
Proof. intros F. eapply Forall_impl; [|exact F]. intros v Hv. exact (coords_fin boxes v Hv). Qed.

Lemma fwaiting_new {A} `{EqDec A} (norm : A -> A) l : NoDup l -> Forall (fun x => norm x = x) l -> fwaiting (queue_new norm l) l.
Proof. intros N F. assert (E : map norm l = l). { rewrite <- (map_id l) at 2. apply map_ext_in. intros x Hx. rewrite Forall_forall in F. auto. }
  unfold fwaiting, queue_new. cbn. rewrite E. repeat split; auto; apply in_dedup. Qed.

(** what waits after a state was completed with the simplices of the mesh *)
Definition fwith_mesh (Q mesh : list fsimplex) : list fsimplex := Q ++ filter (fun x => negb (mem x Q)) (map norm_fsimplex mesh).
Lemma fwaiting_add Q mesh : NoDup Q -> Forall (fun x => norm_fsimplex x = x) Q -> NoDup (map norm_fsimplex mesh) ->
  fwaiting (add_objects norm_fsimplex (queue_new norm_fsimplex Q) mesh) (fwith_mesh Q mesh).
Proof. intros N F M. destruct (fwaiting_new norm_fsimplex Q N F) as (W1 & W2 & W3 & W4). unfold fwith_mesh.
  assert (Ef : filter (fun o => negb (mem o (q_all (queue_new norm_fsimplex Q)))) (map norm_fsimplex mesh) = filter (fun x => negb (mem x Q)) (map norm_fsimplex mesh)).
  { apply filter_ext. intros x. f_equal. destruct (mem x Q) eqn:E; [apply mem_spec in E; apply mem_spec, W4; auto|]. apply mem_false in E. apply mem_false. intros X. apply E, W4. auto. }
  assert (ND : NoDup (Q ++ filter (fun x => negb (mem x Q)) (map norm_fsimplex mesh))).
  { apply NoDup_app_intro; auto; [apply NoDup_filter; auto|]. intros x Hx Hy. apply filter_In in Hy as [_ Hy]. apply negb_true_iff in Hy. apply mem_false in Hy. auto. }
  unfold fwaiting, add_objects. rewrite Ef. destruct (filter (fun x => negb (mem x Q)) (map norm_fsimplex mesh)) as [|y l] eqn:E.
  - rewrite app_nil_r in *. repeat split; auto; apply W4.
  - cbn [q_queued q_running q_all]. rewrite W1. split; auto. split; auto. split; auto. intros x. rewrite in_set_update. rewrite W4, in_app_iff. tauto. Qed.

Section Start.
  Variable g : fconfig.
  Hypothesis GC : good_fconfig g.
  Notation create := (fcreate_state (fg_per g) (fg_boxes g) (fg_gap g) (fg_cutoff g)).

  Lemma norm_mesh mesh : Forall (Forall (good_position (fg_boxes g))) mesh -> Forall (Forall (good_position (fg_boxes g))) (map norm_fsimplex mesh) /\ Forall (fun x => norm_fsimplex x = x) (map norm_fsimplex mesh).
  Proof. intros H. rewrite Forall_forall in H. split; apply Forall_forall; intros x Hx; apply in_map_iff in Hx as (y & <- & Hy).
    - apply norm_verts. auto.
    - apply norm_fsimplex_idem. eapply good_verts_finite. apply H. auto. Qed.
  Lemma queue_new_norm {A} `{EqDec A} (norm : A -> A) l : (forall x, In x l -> norm (norm x) = norm x) -> queue_new norm l = queue_new norm (map norm l).
  Proof. intros H0. unfold queue_new. rewrite map_map. assert (E : map norm l = map (fun x => norm (norm x)) l) by (apply map_ext_in; intros; symmetry; auto). rewrite <- E. reflexivity. Qed.

  Lemma ffresh_start order mesh force : Forall (Forall (good_position (fg_boxes g))) mesh -> NoDup (map norm_fsimplex mesh) ->
    exists s, create order None mesh force = Ok s /\ good_fstart g s [] [] (map norm_fsimplex mesh) [] /\ Forall (fun x => norm_fsimplex x = x) (map norm_fsimplex mesh).
  Proof. intros Hm N. destruct (C62_total (fg_per g) (fg_boxes g) (fg_gap g) (fg_cutoff g) [] [] (gf_boxes g GC) (Forall_nil _) (Forall_nil _)) as ((c & E) & _).
    destruct (norm_mesh mesh Hm) as (V & F). cbn [fcreate_state]. rewrite E. cbn [bind]. eexists. split; [reflexivity|]. split; auto. constructor; cbn [fs_result fs_simplex fs_position]; auto.
    - apply fh_new. exact E.
    - rewrite queue_new_norm; [apply fwaiting_new; auto|]. intros x Hx. apply norm_fsimplex_idem. eapply good_verts_finite. rewrite Forall_forall in Hm. apply Hm. auto.
    - apply (fwaiting_new norm_fpos []); constructor. Qed.

  Variables (rs : list dmin_result) (ps : list fpoint) (Q : list fsimplex) (P : list fpoint) (s : fstate) (k : fctrl).
  Hypothesis GS : good_fstart g s rs ps Q P.
  Hypothesis R : freaches g s k.
  Hypothesis NQ : Forall (fun x => norm_fsimplex x = x) Q.
  Hypothesis NP : Forall (fun p => norm_fpos p = p) P.
  Let I : inv g rs ps Q P (mst k) := proj1 (reach_kinv g rs ps Q P GC s k GS R).

  Lemma known_fixed x : In x (Q ++ frefinements g (fk_log k)) -> norm_fsimplex x = x.
  Proof. intros H. apply in_app_iff in H as [H|H]; [rewrite Forall_forall in NQ; auto|]. unfold frefinements in H. destruct (fg_stencil g) as [st|] eqn:Es; [|destruct H].
    apply in_flat_map in H as (p & Hp & H). apply in_map_iff in H as (y & <- & Hy). apply norm_fsimplex_idem. eapply good_verts_finite.
    pose proof (refined_refinable g rs ps Q P s k GC GS R) as Rf. rewrite Forall_forall in Rf. destruct (gf_stencil g GC st p Es (Rf p Hp)) as (_ & G). rewrite Forall_forall in G. apply G. exact Hy. Qed.
  Lemma pos_fixed p : In p (P ++ fto_refine (fk_log k)) -> norm_fpos p = p.
  Proof. intros H. apply in_app_iff in H as [H|H]; [rewrite Forall_forall in NP; auto|]. unfold fto_refine in H. apply in_flat_map in H as (a & Ha & H). destruct a; cbn in H; try contradiction. destruct H as [<- |[]].
    apply in_split in Ha as (l1 & l2 & E). destruct (decisions g rs ps Q P s k GC GS R _ _ _ E) as (? & ? & ? & _ & _ & -> & _). apply norm_fpos_idem. Qed.

  Lemma frestart order mesh (force : bool) : (forall l, Permutation (order l) l) -> Forall (Forall (good_position (fg_boxes g))) mesh -> NoDup (map norm_fsimplex mesh) ->
    let Q' := objects order (fs_simplex (fk_state k)) in
    let Q'' := if force then fwith_mesh Q' mesh else Q' in
    let P' := q_queued (fs_position (fk_state k)) in
    Permutation Q' (q_queued (fs_simplex (fk_state k)) ++ fin_flight k) /\
    exists s', create order (Some (fk_state k)) mesh force = Ok s' /\
      good_fstart g s' (fmin_results (fs_result (fk_state k))) (ps ++ frefined (fk_log k)) Q'' P' /\
      Forall (fun x => norm_fsimplex x = x) Q'' /\ Forall (fun p => norm_fpos p = p) P' /\
      cl_flat (fc_nodes (fs_result s')) = map (fstored (fg_per g) (fg_boxes g)) (cl_flat (fc_nodes (fs_result (fk_state k)))) /\
      fc_rejected (fs_result s') = map (fstored (fg_per g) (fg_boxes g)) (fc_rejected (fs_result (fk_state k))).
  Proof. intros O Hm Nm Q' Q'' P'.
    destruct (results g rs ps Q P s k GC GS R) as (N & Rj & Rf). destruct (i_hist _ _ _ _ _ _ I) as (A1 & A2 & A3 & A4 & A5 & A6 & A7). cbn [mst fst snd] in A5, A6.
    assert (St : forall r, good_position (fg_boxes g) (dr_pos r) -> good_position (fg_boxes g) (dr_pos (fstored (fg_per g) (fg_boxes g) r))) by (intros r Hr; apply stored_good; auto).
    set (all := rs ++ map snd (frecorded (fk_log k))) in *. set (f := fstored (fg_per g) (fg_boxes g)) in *.
    assert (Em : fmin_results (fs_result (fk_state k)) = filter (is_fnode (fg_gap g)) (map f all) ++ filter (fun r => negb (is_fnode (fg_gap g) r)) (map f all)) by (unfold fmin_results; rewrite N, Rj; reflexivity).
    assert (Hr : Forall (fun r => good_position (fg_boxes g) (dr_pos r)) (fmin_results (fs_result (fk_state k)))).
    { rewrite Em. apply Forall_forall. intros r Hr. assert (In r (map f all)) by (apply in_app_iff in Hr as [X|X]; apply filter_In in X; tauto). apply in_map_iff in H as (r0 & <- & H0). apply St. rewrite Forall_forall in A5. auto. }
    destruct (C62_total (fg_per g) (fg_boxes g) (fg_gap g) (fg_cutoff g) _ _ A1 Hr A6) as ((c & E) & _).
    assert (EQ : Permutation Q' (q_queued (fs_simplex (fk_state k)) ++ fin_flight k)).
    { unfold Q', objects. rewrite O, (tasks_perm g rs ps Q P s k GC GS R). apply Permutation_app_comm. }
    assert (Kn : forall x, In x Q' -> In x (Q ++ frefinements g (fk_log k))).
    { intros x Hx. apply (scheduled_set g rs ps Q P s k GC GS R). apply (Permutation_in _ EQ) in Hx. apply in_app_iff in Hx. tauto. }
    assert (NDQ : NoDup Q').
    { eapply Permutation_NoDup; [symmetry; exact EQ|]. pose proof (partition g rs ps Q P s k GC GS R) as Pa. apply Permutation_sym in Pa. pose proof (Permutation_NoDup Pa (first_occ_nodup [] _)) as ND. rewrite app_assoc in ND. apply nodup_app_l in ND. auto. }
    assert (FQ : Forall (fun x => norm_fsimplex x = x) Q') by (apply Forall_forall; intros x Hx; apply known_fixed; auto).
    assert (VQ : Forall (Forall (good_position (fg_boxes g))) Q') by (pose proof (i_verts _ _ _ _ _ _ I) as V; rewrite Forall_forall in *; intros x Hx; apply V, Kn; auto).
    destruct (norm_mesh mesh Hm) as (VM & FM).
    assert (FQ2 : Forall (fun x => norm_fsimplex x = x) Q'').
    { unfold Q''. destruct force; auto. apply Forall_app. split; auto. apply Forall_forall. intros x Hx. apply filter_In in Hx as [Hx _]. rewrite Forall_forall in FM. auto. }
    assert (FP : Forall (fun p => norm_fpos p = p) P').
    { apply Forall_forall. intros p Hp. apply pos_fixed. apply (position_set g rs ps Q P s k GC GS R). auto. }
    split; auto. pose proof (i_prun _ _ _ _ _ _ I) as PR. cbn [mst fst] in PR.
    cbn [fcreate_state]. rewrite Rf, E. cbn [bind]. eexists. split; [reflexivity|]. cbn [fs_result].
    assert (G : good_fstart g (mk_fstate c (if force then add_objects norm_fsimplex (queue_new norm_fsimplex (objects order (fs_simplex (fk_state k)))) mesh else queue_new norm_fsimplex (objects order (fs_simplex (fk_state k))))
      (queue_new norm_fpos (objects (fun l => l) (fs_position (fk_state k))))) (fmin_results (fs_result (fk_state k))) (ps ++ frefined (fk_log k)) Q'' P').
    { constructor; cbn [fs_result fs_simplex fs_position].
      - apply fh_new. exact E.
      - exact Hr.
      - exact A6.
      - unfold Q''. destruct force; [apply fwaiting_add; auto|apply fwaiting_new; auto].
      - unfold objects. rewrite PR. cbn [app]. apply fwaiting_new; auto. pose proof (i_pnd _ _ _ _ _ _ I) as ND. cbn [mst fst snd] in ND. clear -ND. induction (frefined (fk_log k)); cbn in *; auto. inversion ND; auto.
      - unfold Q''. destruct force; auto. apply Forall_app. split; auto. apply Forall_forall. intros x Hx. apply filter_In in Hx as [Hx _]. rewrite Forall_forall in VM. auto.
      - apply (i_pos _ _ _ _ _ _ I).
      - apply (i_none _ _ _ _ _ _ I). }
    split; [exact G|]. split; auto. split; auto.
    destruct (C62_classified (fg_per g) (fg_boxes g) (fg_gap g) (fg_cutoff g) _ _ c A1 Hr A6 (fh_new _ _ _ _ _ _ _ E)) as (C1 & C2 & _). fold f in C1, C2. rewrite C1, C2, Em, N, Rj, map_app, !filter_app.
    assert (Fn : forall r, is_fnode (fg_gap g) (f r) = is_fnode (fg_gap g) r) by reflexivity.
    assert (Ft : forall (h : dmin_result -> bool) l, (forall r, h (f r) = h r) -> filter h (map f (filter h l)) = map f (filter h l)).
    { intros h l Hh. induction l as [|r l IH]; cbn; auto. destruct (h r) eqn:Er; cbn; auto. rewrite Hh, Er, IH. reflexivity. }
    assert (Ff : forall (h : dmin_result -> bool) l, (forall r, h (f r) = h r) -> filter h (map f (filter (fun r => negb (h r)) l)) = []).
    { intros h l Hh. induction l as [|r l IH]; cbn; auto. destruct (h r) eqn:Er; cbn; auto. rewrite Hh, Er. auto. }
    split.
    - rewrite Ft, Ff, app_nil_r by auto. reflexivity.
    - rewrite (Ft (fun r => negb (is_fnode (fg_gap g) r))) by auto.
      assert (Ez : filter (fun r => negb (is_fnode (fg_gap g) r)) (map f (filter (is_fnode (fg_gap g)) (map f all))) = []).
      { clear. induction (map f all) as [|r l IH]; cbn; auto. destruct (is_fnode (fg_gap g) r) eqn:Er; cbn; auto. change (is_fnode (fg_gap g) (f r)) with (is_fnode (fg_gap g) r). rewrite Er. auto. }
      rewrite Ez. reflexivity. Qed.
End Start.
