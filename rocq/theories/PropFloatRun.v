(** Property theorems C67: complete searches in double precision, the minimizations included.

    [fsearch g p evals raises s k] (SpecFloatRun.v): the search with configuration [g] and
    minimization parameters [p], started in state [s], is in the situation [k] after some
    sequence of events in which the minimizations that ended are minimizations (FloatMin.v) of
    a potential whose evaluations at [y] give some [v] with [evals y v] or raise some [e] with
    [raises y e]; the answers may differ from call to call. *)
From Verif Require Import Base BaseFacts CoordSys CellList Queue QueueFacts SpecQueue.
From Coq Require Import ZArith Reals.
From Flocq Require Import Core BinarySingleNaN.
From Verif Require Import Float FloatFacts FloatVector FloatVectorFacts NelderMead FloatMin FloatOrder SpecFloatMin FloatMinFacts FloatMinProps FloatMinExtra FloatMinExt
  FloatCell SpecFloatCell FloatCellNum FloatCellFacts PropFloatCell FloatCheck PropFloatCheck FloatController SpecFloatSearch SpecFloatRun FloatSearchFacts FloatSearchSteps FloatSearchLog FloatSearchProps FloatSearchEnd FloatSearchStart
  PropFloatSearch FloatSearchExample FloatGenuine FloatRunExample.
From Coq Require Import Lra.
Open Scope list_scope.

Lemma fwithin_good boxes p : Forall good_box boxes -> fwithin 9 boxes p -> good_position boxes p.
Proof. intros Gb H. unfold fwithin, good_position, good_coord in *. revert Gb. induction H as [|b x boxes p (F & B) H IH]; intros Gb; constructor; [|apply IH; exact (Forall_inv_tail Gb)]. split; auto.
  eapply Rle_trans; [exact B|]. apply Rmult_le_compat_r; [|apply bpow_le; lia]. left. exact (s_pos b (Forall_inv Gb)). Qed.

(** *** Every node was found: it was known at the start, or the potential was evaluated at a
    position of which the node is the normalised image (up to rounding), the reported value is
    the value returned there, and it does not exceed the gap threshold. *)
Theorem C67_nodes_evaluated : forall g p evals raises rs ps Q P s k, good_fconfig g -> good_fstart g s rs ps Q P -> fproper g Q ->
  fsearch g p evals raises s k -> (forall y v, evals y v -> v <> nan) -> fg_gap g <> nan ->
  forall r, In r (cl_flat (fc_nodes (fs_result (fk_state k)))) ->
    (exists r0, In r0 rs /\ r = fstored (fg_per g) (fg_boxes g) r0) \/
    dr_success r = true /\ dle (dr_value r) (fg_gap g) = true /\
    exists y v, evals y v /\ same_number (dr_value r) v /\ fwithin 9 (fg_boxes g) y /\
      image_of (fg_boxes g) y (dr_pos r) /\ (if fg_per g then Forall2 in_box (fg_boxes g) (dr_pos r) else dr_pos r = y).
Proof. intros g p evals raises rs ps Q P s k GC GS PS Sr N Ng r Hr. destruct (fsearch_facts g p evals raises GC rs ps Q P s GS PS k Sr) as (R & Hrec & _).
  destruct (results g rs ps Q P s k GC GS R) as (E & _). rewrite E in Hr. apply filter_In in Hr as [Hr Hn]. apply in_map_iff in Hr as (r0 & <- & Hr). apply in_app_iff in Hr as [Hr|Hr]; [left; exists r0; auto|right].
  apply in_map_iff in Hr as ([x r1] & Er & Hr). cbn in Er. subst r1. destruct (Hrec x r0 Hr) as (Hx & M & W). destruct (fminimized_ok g p evals raises x r0 Hx M) as (Lr & Ev). destruct (Ev N) as (v & Hv & Sv).
  unfold is_fnode in Hn. apply andb_true_iff in Hn as [Hs Hg]. apply negb_true_iff in Hg. split; [exact Hs|]. cbn [fstored fset_pos dr_value dr_pos dr_success] in *.
  pose proof (fwithin_good _ _ (gf_boxes g GC) W) as Gp. split.
  { apply not_dlt; [exact Ng| |exact Hg]. destruct Sv as (S1 & _). eapply dle_nnan_l; exact S1. }
  exists (dr_pos r0), v. split; [exact Hv|]. split; [exact Sv|]. split; [exact W|]. split; [apply stored_image; auto using (gf_boxes g GC)|].
  pose proof (C62_stored_in_box (fg_per g) (fg_boxes g) r0 (gf_boxes g GC) Gp) as I. unfold good_refined in I. destruct (fg_per g); [exact I|].
  clear -Lr. unfold fstored. cbn [fset_pos dr_pos]. revert Lr. generalize (dr_pos r0) as q. induction (fg_boxes g) as [|b boxes IH]; intros [|c q] L; cbn in *; try discriminate; auto. f_equal. apply IH. lia. Qed.
Print Assumptions C67_nodes_evaluated.

(** *** If the potential computes a function F of real coordinates up to an error [eps] (at the
    positions it is evaluated at), F being periodic and Lipschitz if the box is periodic, then at
    every reported node the true gap F is what is reported, up to that error and the one of
    normalising; it exceeds the threshold by at most as much. *)
Theorem C67_gap_at_node : forall g p evals raises rs ps Q P s k, good_fconfig g -> good_fstart g s rs ps Q P -> fproper g Q ->
  fsearch g p evals raises s k -> (forall y v, evals y v -> v <> nan) -> is_finite (fg_gap g) = true ->
  forall F eps lip, (0 <= lip)%R -> (forall y v, evals y v -> fwithin 9 (fg_boxes g) y -> is_finite v = true /\ (Rabs (B2R v - F (map B2R y)) <= eps)%R) ->
  (fg_per g = true -> box_periodic (fg_boxes g) F /\ lipschitz (List.length (fg_boxes g)) lip F) ->
  forall r, In r (cl_flat (fc_nodes (fs_result (fk_state k)))) -> (forall r0, In r0 rs -> r <> fstored (fg_per g) (fg_boxes g) r0) ->
    let err := (eps + if fg_per g then lip * total_norm_error (fg_boxes g) else 0)%R in
    (Rabs (B2R (dr_value r) - F (map B2R (dr_pos r))) <= err /\ F (map B2R (dr_pos r)) <= B2R (fg_gap g) + err)%R.
Proof. intros g p evals raises rs ps Q P s k GC GS PS Sr N Fg F eps lip Lp Ap Pe r Hr New err.
  destruct (C67_nodes_evaluated g p evals raises rs ps Q P s k GC GS PS Sr N ltac:(intros E; rewrite E in Fg; discriminate) r Hr) as [(r0 & I0 & E0)|(_ & Lg & y & v & Ev & Sv & W & Im & Ip)]; [elim (New r0 I0 E0)|].
  destruct (Ap y v Ev W) as (Fv & Bv).
  assert (Fr : is_finite (dr_value r) = true /\ B2R (dr_value r) = B2R v).
  { destruct (same_number_cases _ _ Sv) as [->|(s1 & s2 & -> & ->)]; [split; auto|split; reflexivity]. } destruct Fr as (Fr & Vr).
  assert (Lv : (B2R (dr_value r) <= B2R (fg_gap g))%R).
  { unfold dle in Lg. rewrite Bleb_correct in Lg by auto. pose proof (Rle_bool_spec (B2R (dr_value r)) (B2R (fg_gap g))) as X. rewrite Lg in X. inversion X; auto. }
  assert (D : (Rabs (B2R (dr_value r) - F (map B2R (dr_pos r))) <= err)%R).
  { rewrite Vr. unfold err. destruct (fg_per g) eqn:Ep.
    - destruct (Pe eq_refl) as (P1 & P2). pose proof (gap_moved (fg_boxes g) F lip y (dr_pos r) (gf_boxes g GC) Im P1 P2 Lp) as G. rewrite Rabs_minus_sym in G.
      replace (B2R v - F (map B2R (dr_pos r)))%R with ((B2R v - F (map B2R y)) + (F (map B2R y) - F (map B2R (dr_pos r))))%R by ring. eapply Rle_trans; [apply Rabs_triang|]. lra.
    - rewrite Ip, Rplus_0_r. exact Bv. }
  split; [exact D|]. rewrite abs_le in D. lra. Qed.
Print Assumptions C67_gap_at_node.

(** *** The search raises only what the potential raises, or what the fake potential raises at a
    position that is not finite or more than 1024 box sizes away. *)
Theorem C67_exceptions : forall g p evals raises rs ps Q P s k e, good_fconfig g -> good_fstart g s rs ps Q P -> fproper g Q ->
  fsearch g p evals raises s k -> fk_phase k = FRaised e ->
  exists y, List.length y = List.length (fg_boxes g) /\
    (raises y e \/ ~ good_position (fg_boxes g) y /\ exists rs' ps' c, reliable (fg_per g) (fg_boxes g) (fg_gap g) (fg_cutoff g) rs' ps' c /\ ffake_potential c (fg_cutoff g) y = Err e).
Proof. intros g p evals raises rs ps Q P s k e GC GS PS Sr Ph. destruct (fsearch_facts g p evals raises GC rs ps Q P s GS PS k Sr) as (R & _ & Hex).
  destruct (Hex e (raised_exception g rs ps Q P s k GC GS R e Ph)) as (x & Hx & M). exact (fminimized_err g p evals raises GC x e Hx M). Qed.
Print Assumptions C67_exceptions.

(** *** Every minimization the search starts is one that ends: of a proper simplex, with a result
    or with an exception the potential raised (whatever the potential answers). *)
Theorem C67_minimizations_end : forall g p evals raises rs ps Q P s k x, good_fconfig g -> good_fstart g s rs ps Q P -> fproper g Q ->
  fsearch g p evals raises s k -> In x (fstarted (fk_log k)) ->
  is_dsimplex (List.length (fg_boxes g)) x /\
  forall argsort np_dmin func, dargsort_ok argsort ->
    (exists r w, droot_nelder_mead argsort np_dmin func p x = Ok (r, w)) \/
    (exists e j y, droot_nelder_mead argsort np_dmin func p x = Err e /\ func j y = Err e /\ List.length y = List.length (fg_boxes g)).
Proof. intros g p evals raises rs ps Q P s k x GC GS PS Sr Hx. destruct (fsearch_facts g p evals raises GC rs ps Q P s GS PS k Sr) as (R & _ & _).
  assert (Dx : is_dsimplex (List.length (fg_boxes g)) x) by (apply (fproper_known g GC rs ps Q P s GS PS k R); apply (started_scheduled g rs ps Q P s k GC GS R); exact Hx). split; [exact Dx|].
  intros argsort np_dmin func Hs. destruct (droot_nelder_mead argsort np_dmin func p x) as [[r w]|e] eqn:E; [left; eauto|right]. destruct (droot_err_len _ _ _ _ _ _ _ Hs Dx E) as (j & y & L & H). eauto 7. Qed.
Print Assumptions C67_minimizations_end.

(** hypotheses met: the distance from 1/4 in the periodic box [0, 1], computed in double
    precision, with gap threshold 1/16; a search that returns after four minimizations (the last
    with the fake potential) with four nodes *)
Theorem C67_hypotheses_met : exists s k, good_fconfig run_g /\ good_fstart run_g s [] [] (map norm_fsimplex ex_mesh) [] /\ fproper run_g (map norm_fsimplex ex_mesh) /\
  fsearch run_g run_p run_evals run_raises s k /\ fk_phase k = FReturned /\ List.length (cl_flat (fc_nodes (fs_result (fk_state k)))) = 4%nat /\
  (forall y v, run_evals y v -> v <> nan) /\ is_finite (fg_gap run_g) = true /\
  (forall y v, run_evals y v -> fwithin 9 (fg_boxes run_g) y -> is_finite v = true /\ (Rabs (B2R v - run_F (map B2R y)) <= bpow radix2 (-39))%R) /\
  box_periodic (fg_boxes run_g) run_F /\ lipschitz (List.length (fg_boxes run_g)) 1 run_F.
Proof. destruct (run_inv _ _ run_computed) as (s & k & E & R & C1 & C2). destruct ex_mesh_good as (M1 & M2). destruct (C64_fresh_start run_g (fun l => l) ex_mesh false run_g_good M1 M2) as (s' & E' & G & _).
  rewrite E in E'. injection E' as <-. exists s, k. split; [apply run_g_good|]. split; [exact G|]. split; [apply run_proper|].
  split; [apply (run_honest s run_events (fstart s)); [constructor|exact R]|]. split.
  { unfold fsummary in C1. pose proof (f_equal (fun l => nth 6 l 0%nat) C1) as X. cbn [nth] in X. destruct (fk_phase k) as [| | |[]]; try discriminate; reflexivity. }
  split; [apply (f_equal (@List.length _)) in C2; rewrite !map_length in C2; exact C2|]. split.
  { intros y v ->. unfold run_f. destruct y as [|c [|? ?]]; try discriminate. cbv zeta. destruct (is_nan _) eqn:Nn; [discriminate|]. intros X. rewrite X in Nn. discriminate. }
  split; [reflexivity|]. split; [exact run_f_F|]. split; [exact run_F_periodic|exact run_F_lip]. Qed.
Print Assumptions C67_hypotheses_met.
