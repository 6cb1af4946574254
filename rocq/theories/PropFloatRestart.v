(** C75: restarting again and again does not move the nodes, in double precision.
    A search created from the state of another one adds the results to a new container, which
    normalises their positions once more; in double precision this can change a position
    ([C75_first_restart_refuted]).  Here: it happens at most once to each result, so that there is
    no drift however often a search is saved and restarted, and no result is lost. *)
From Verif Require Import Base BaseFacts CoordSys CellList Queue QueueFacts SpecQueue.
From Coq Require Import ZArith Reals Permutation.
From Flocq Require Import Core BinarySingleNaN.
From Verif Require Import Float FloatFacts FloatVector NelderMead FloatMin FloatCell SpecFloatCell FloatVectorFacts FloatCellNum FloatCellFacts PropFloatCell FloatCheck PropFloatCheck FloatController SpecFloatSearch
  FloatSearchFacts FloatSearchSteps FloatSearchLog FloatSearchProps FloatSearchEnd FloatSearchStart FloatSearchExample SpecFloatRun FloatGenuine PropFloatSearch FloatRestart SpecFloatRestart.
From Coq Require Import List Lra.
Import ListNotations.
Open Scope list_scope.

Lemma coord_good b x : good_box b -> good_coord b x -> good_coord b (fnormalize (fst b) (snd b) x).
Proof. intros Gb Gx. apply (storable_good true b); auto. apply (normalized_storable true b x); auto. Qed.

(** *** One coordinate: the second normalisation is final *)
Theorem C75_position_settles : forall b x, good_box b -> good_coord b x ->
  let normalize := fnormalize (fst b) (snd b) in normalize (normalize (normalize x)) = normalize (normalize x).
Proof. intros b x Gb Gx n. pose proof (coord_good b x Gb Gx) as G1. apply norm_twice; auto. apply coord_good; auto. Qed.
Print Assumptions C75_position_settles.

Section Kept.
  Variables (per : bool) (boxes : list fbox).
  Hypothesis Gb : Forall good_box boxes.
  Notation f := (fstored per boxes).
  Notation good r := (good_position boxes (dr_pos r)).

  Lemma settled r : good r -> f (f (f r)) = f (f r).
  Proof. intros Gr. unfold fstored, fset_pos. cbn [dr_pos dr_value dr_success dr_status dr_num_fev dr_num_iter dr_simplex_history dr_fun_history]. f_equal.
    induction Gr as [|b x boxes' p Hx Gr IH]; [reflexivity|]. inversion Gb; subst. cbn [map2]. f_equal; [|apply IH; auto]. destruct per; cbn; auto. apply C75_position_settles; auto. Qed.
  Lemma node_stored gap r : is_fnode gap (f r) = is_fnode gap r.
  Proof. reflexivity. Qed.
  Definition kept (r m : dmin_result) : Prop := good r /\ (m = f r \/ m = f (f r)).
  Lemma kept_again r m : kept r m -> kept r (f m).
  Proof. intros (G & [-> | ->]); split; auto. right. apply settled; auto. Qed.
  Lemma kept_new gap l : Forall (fun r => good r) l -> Forall2 kept (filter (is_fnode gap) l) (filter (is_fnode gap) (map f l)) /\
    Forall2 kept (filter (fun r => negb (is_fnode gap r)) l) (filter (fun r => negb (is_fnode gap r)) (map f l)).
  Proof. induction 1 as [|r l Hr Hl (I1 & I2)]; cbn [map filter]; [split; constructor|]. rewrite !node_stored. destruct (is_fnode gap r); cbn [negb]; split; auto; constructor; auto; split; auto. Qed.
  Lemma kept_map l l' : Forall2 kept l l' -> Forall2 kept l (map f l').
  Proof. induction 1; cbn; constructor; auto. apply kept_again; auto. Qed.
  Lemma kept_stands r m : kept r m -> stands_for boxes r m.
  Proof. intros (G & K). pose proof (F2_length _ _ _ G) as L. pose proof (stored_good per boxes r Gb G) as G1.
    assert (S1 : image_of boxes (dr_pos r) (dr_pos (f r))) by (apply stored_image; auto). assert (S2 : image_of boxes (dr_pos (f r)) (dr_pos (f (f r)))) by (apply (stored_image per boxes (dr_pos (f r))); auto).
    destruct S1 as (A1 & A2 & A3). destruct S2 as (B1 & B2 & B3). split; [destruct K as [-> | ->]; reflexivity|]. split; [auto|]. split; [destruct K as [-> | ->]; auto|].
    intros i b x y Eb Ex Ey. assert (Gbi : good_box b) by (rewrite Forall_forall in Gb; apply Gb; eapply nth_error_In; eauto). pose proof (norm_error_pos b Gbi) as Pe. destruct K as [-> | ->].
    - destruct (A3 i b x y Eb Ex Ey) as (j & Hj). exists j. lra.
    - assert (Hi : (i < length (dr_pos (f r)))%nat) by (rewrite A2; apply nth_error_Some; rewrite Eb; discriminate). destruct (nth_error (dr_pos (f r)) i) as [z|] eqn:Ez; [|apply nth_error_None in Ez; lia].
      destruct (A3 i b x z Eb Ex Ez) as (j & Hj). destruct (B3 i b z y Eb Ez Ey) as (j' & Hj'). exists (j + j')%Z. rewrite plus_IZR. rewrite abs_le in *. lra. Qed.
  Lemma kept_stands_all l l' : Forall2 kept l l' -> Forall2 (stands_for boxes) l l'.
  Proof. induction 1; constructor; auto. apply kept_stands; auto. Qed.
End Kept.

(** *** One restart *)
Section Session.
  Variable g : fconfig.
  Hypothesis GC : good_fconfig g.
  Notation f := (fstored (fg_per g) (fg_boxes g)).
  Notation isn := (is_fnode (fg_gap g)).
  Notation good r := (good_position (fg_boxes g) (dr_pos r)).

  Definition proper_start (s : fstate) : Prop := exists rs ps Q P, good_fstart g s rs ps Q P /\ Forall (fun x => norm_fsimplex x = x) Q /\ Forall (fun p => norm_fpos p = p) P.
  Lemma recorded_good s k : proper_start s -> freaches g s k -> Forall (fun r => good r) (map snd (frecorded (fk_log k))).
  Proof. intros (rs & ps & Q & P & GS & _) R. destruct (i_hist _ _ _ _ _ _ (proj1 (reach_kinv g rs ps Q P GC s k GS R))) as (_ & _ & _ & _ & A5 & _). cbn [mst fst snd] in A5. apply Forall_app in A5. tauto. Qed.
  Lemma within_session s k : proper_start s -> freaches g s k ->
    fnodes k = cl_flat (fc_nodes (fs_result s)) ++ filter isn (map f (map snd (frecorded (fk_log k)))) /\
    frejects k = fc_rejected (fs_result s) ++ filter (fun r => negb (isn r)) (map f (map snd (frecorded (fk_log k)))).
  Proof. intros (rs & ps & Q & P & GS & _) R. destruct (results g rs ps Q P s k GC GS R) as (N & Rj & _). assert (R0 : freaches g s (fstart s)) by (exists []; split; [constructor|reflexivity]).
    destruct (results g rs ps Q P s (fstart s) GC GS R0) as (N0 & Rj0 & _). cbn [fstart fk_state fk_log frecorded flat_map map] in N0, Rj0. rewrite app_nil_r in N0, Rj0.
    unfold fnodes, frejects. rewrite N, Rj, N0, Rj0, map_app, !filter_app. split; reflexivity. Qed.
  Lemma restart_step s k order mesh force s' : proper_start s -> freaches g s k -> (forall l, Permutation (order l) l) -> Forall (Forall (good_position (fg_boxes g))) mesh -> NoDup (map norm_fsimplex mesh) ->
    fcreate_state (fg_per g) (fg_boxes g) (fg_gap g) (fg_cutoff g) order (Some (fk_state k)) mesh force = Ok s' ->
    proper_start s' /\ cl_flat (fc_nodes (fs_result s')) = map f (fnodes k) /\ fc_rejected (fs_result s') = map f (frejects k).
  Proof. intros (rs & ps & Q & P & GS & NQ & NP) R O Hm Nm E. destruct (frestart g GC rs ps Q P s k GS R NQ NP order mesh force O Hm Nm) as (_ & s1 & E1 & G & F1 & F2 & N1 & N2).
    rewrite E1 in E. assert (X : s1 = s') by exact (match E in _ = r return s1 = match r with Ok y => y | Err _ => s1 end with eq_refl => eq_refl end). subst s1. split; [|split; auto]. do 4 eexists. split; [exact G|]. split; auto. Qed.
  (** since some state: [r0] and [j0] are the nodes and rejected results at the beginning, which
      further normalisations do not change *)
  Lemma sessions_kept s rs n found k : proper_start s -> sessions g s rs n found k ->
    exists s1, proper_start s1 /\ freaches g s1 k.
  Proof. intros Ps. induction 1 as [k R|n found k order mesh force s' k' Se IH O Hm Nm E R]; [exists s; auto|]. destruct IH as (s1 & P1 & R1). exists s'. split; auto. eapply restart_step; eauto. Qed.
  (** the results of all sessions; [r0], [j0]: a part that does not change *)
  Lemma sessions_inv s n found k r0 j0 : proper_start s -> cl_flat (fc_nodes (fs_result s)) = r0 -> fc_rejected (fs_result s) = j0 -> map f r0 = r0 -> map f j0 = j0 -> sessions g s [] n found k ->
    exists new newr, fnodes k = r0 ++ new /\ frejects k = j0 ++ newr /\ Forall2 (kept (fg_per g) (fg_boxes g)) (filter isn found) new /\ Forall2 (kept (fg_per g) (fg_boxes g)) (filter (fun r => negb (isn r)) found) newr.
  Proof. intros Ps E1 E2 S1 S2. induction 1 as [k R|n found k order mesh force s' k' Se IH O Hm Nm E R].
    - destruct (within_session s k Ps R) as (W1 & W2). rewrite E1 in W1. rewrite E2 in W2. do 2 eexists. split; [exact W1|]. split; [exact W2|]. cbn [app]. apply kept_new. apply recorded_good with s; auto.
    - destruct IH as (new & newr & I1 & I2 & K1 & K2). destruct (sessions_kept _ _ _ _ _ Ps Se) as (s1 & P1 & R1). destruct (restart_step s1 k order mesh force s' P1 R1 O Hm Nm E) as (P' & N1 & N2).
      destruct (within_session s' k' P' R) as (W1 & W2). rewrite N1, I1, map_app, S1, <- app_assoc in W1. rewrite N2, I2, map_app, S2, <- app_assoc in W2.
      do 2 eexists. split; [exact W1|]. split; [exact W2|]. rewrite !filter_app. pose proof (recorded_good s' k' P' R) as Gr. destruct (kept_new (fg_per g) (fg_boxes g) (fg_gap g) _ Gr) as (Q1 & Q2).
      split; apply Forall2_app; auto; apply kept_map; auto; apply (gf_boxes g GC). Qed.
  Lemma sessions_all s rs ps Q P n found k : good_fstart g s rs ps Q P -> Forall (fun x => norm_fsimplex x = x) Q -> Forall (fun p => norm_fpos p = p) P -> sessions g s rs n found k ->
    Forall2 (kept (fg_per g) (fg_boxes g)) (filter isn found) (fnodes k) /\ Forall2 (kept (fg_per g) (fg_boxes g)) (filter (fun r => negb (isn r)) found) (frejects k).
  Proof. intros GS NQ NP. assert (Ps : proper_start s) by (do 4 eexists; eauto). induction 1 as [k R|n found k order mesh force s' k' Se IH O Hm Nm E R].
    - destruct (results g rs ps Q P s k GC GS R) as (N & Rj & _). unfold fnodes, frejects. rewrite N, Rj. apply kept_new. apply Forall_app. split; [apply (gt_results _ _ _ _ _ _ GS)|]. apply recorded_good with s; auto.
    - destruct IH as (K1 & K2). destruct (sessions_kept _ _ _ _ _ Ps Se) as (s1 & P1 & R1). destruct (restart_step s1 k order mesh force s' P1 R1 O Hm Nm E) as (P' & N1 & N2).
      destruct (within_session s' k' P' R) as (W1 & W2). rewrite W1, W2, N1, N2, !filter_app. pose proof (recorded_good s' k' P' R) as Gr. destruct (kept_new (fg_per g) (fg_boxes g) (fg_gap g) _ Gr) as (Q1 & Q2).
      split; apply Forall2_app; auto; apply kept_map; auto; apply (gf_boxes g GC). Qed.
  Lemma nodes_fixed s k : proper_start s -> freaches g s k -> map f (map f (fnodes k)) = map f (fnodes k) /\ map f (map f (frejects k)) = map f (frejects k).
  Proof. intros (rs & ps & Q & P & GS & _) R. destruct (results g rs ps Q P s k GC GS R) as (N & Rj & _). destruct (i_hist _ _ _ _ _ _ (proj1 (reach_kinv g rs ps Q P GC s k GS R))) as (_ & _ & _ & _ & A5 & _). cbn [mst fst snd] in A5.
    unfold fnodes, frejects. rewrite N, Rj. rewrite !map_map. set (all := rs ++ _) in *. split; apply map_ext_in; intros m Hm; apply filter_In in Hm as (Hm & _); apply in_map_iff in Hm as (r & <- & Hr); apply settled; try apply (gf_boxes g GC); rewrite Forall_forall in A5; auto. Qed.
End Session.

(** *** Nothing is lost however often the search is restarted *)
(** one node for every node found, one rejected result for every other one, in the order in which
    they were found; each differs from what the minimization returned in the position only, which
    is the same point of the periodic box up to twice the error of one normalisation *)
Theorem C75_every_result_kept : forall g s rs ps Q P n found k, good_fconfig g -> good_fstart g s rs ps Q P ->
  Forall (fun x => norm_fsimplex x = x) Q -> Forall (fun p => norm_fpos p = p) P -> sessions g s rs n found k ->
  Forall2 (stands_for (fg_boxes g)) (filter (is_fnode (fg_gap g)) found) (fnodes k) /\
  Forall2 (stands_for (fg_boxes g)) (filter (fun r => negb (is_fnode (fg_gap g) r)) found) (frejects k).
Proof. intros g s rs ps Q P n found k GC GS NQ NP Se. destruct (sessions_all g GC s rs ps Q P n found k GS NQ NP Se) as (K1 & K2).
  split; eapply kept_stands_all; eauto; apply (gf_boxes g GC). Qed.
Print Assumptions C75_every_result_kept.

(** *** From the first restart on, a result does not change any more *)
(** [k]: any moment of a search; [s']: a search created from its state; [k']: a moment of that
    search or of one restarted from it any number of times: it has the nodes with which [s']
    began, bit for bit, followed by one for each node found since *)
Theorem C75_settled : forall g s rs ps Q P k order mesh force s' n found k', good_fconfig g -> good_fstart g s rs ps Q P ->
  Forall (fun x => norm_fsimplex x = x) Q -> Forall (fun p => norm_fpos p = p) P -> freaches g s k ->
  (forall l, Permutation (order l) l) -> Forall (Forall (good_position (fg_boxes g))) mesh -> NoDup (map norm_fsimplex mesh) ->
  fcreate_state (fg_per g) (fg_boxes g) (fg_gap g) (fg_cutoff g) order (Some (fk_state k)) mesh force = Ok s' ->
  sessions g s' [] n found k' ->
  exists new newr, fnodes k' = fnodes (fstart s') ++ new /\ frejects k' = frejects (fstart s') ++ newr /\
    Forall2 (stands_for (fg_boxes g)) (filter (is_fnode (fg_gap g)) found) new /\
    Forall2 (stands_for (fg_boxes g)) (filter (fun r => negb (is_fnode (fg_gap g) r)) found) newr.
Proof. intros g s rs ps Q P k order mesh force s' n found k' GC GS NQ NP R O Hm Nm E Se. assert (Ps : proper_start g s) by (do 4 eexists; eauto).
  destruct (restart_step g GC s k order mesh force s' Ps R O Hm Nm E) as (P' & N1 & N2). destruct (nodes_fixed g GC s k Ps R) as (F1 & F2).
  destruct (sessions_inv g GC s' n found k' (fnodes (fstart s')) (frejects (fstart s')) P' eq_refl eq_refl) as (new & newr & A & B & C & D); auto.
  - change (fnodes (fstart s')) with (cl_flat (fc_nodes (fs_result s'))). rewrite N1. exact F1.
  - change (frejects (fstart s')) with (fc_rejected (fs_result s')). rewrite N2. exact F2.
  - exists new, newr. split; auto. split; auto. split; eapply kept_stands_all; eauto; apply (gf_boxes g GC). Qed.
Print Assumptions C75_settled.
(** without periodicity not even the first restart changes anything *)
Theorem C75_open_box : forall g s rs ps Q P k order mesh force s', good_fconfig g -> good_fstart g s rs ps Q P ->
  Forall (fun x => norm_fsimplex x = x) Q -> Forall (fun p => norm_fpos p = p) P -> freaches g s k ->
  (forall l, Permutation (order l) l) -> Forall (Forall (good_position (fg_boxes g))) mesh -> NoDup (map norm_fsimplex mesh) ->
  fcreate_state (fg_per g) (fg_boxes g) (fg_gap g) (fg_cutoff g) order (Some (fk_state k)) mesh force = Ok s' -> fg_per g = false ->
  fnodes (fstart s') = fnodes k /\ frejects (fstart s') = frejects k.
Proof. intros g s rs ps Q P k order mesh force s' GC GS NQ NP R O Hm Nm E Per. assert (Ps : proper_start g s) by (do 4 eexists; eauto).
  destruct (restart_step g GC s k order mesh force s' Ps R O Hm Nm E) as (P' & N1 & N2). change (fnodes (fstart s')) with (cl_flat (fc_nodes (fs_result s'))). change (frejects (fstart s')) with (fc_rejected (fs_result s')). rewrite N1, N2.
  destruct (results g rs ps Q P s k GC GS R) as (N & Rj & _). destruct (i_hist _ _ _ _ _ _ (proj1 (reach_kinv g rs ps Q P GC s k GS R))) as (_ & _ & _ & _ & A5 & _). cbn [mst fst snd] in A5.
  assert (I : forall r, good_position (fg_boxes g) (dr_pos r) -> fstored (fg_per g) (fg_boxes g) r = r).
  { intros [p v su st nf ni h1 h2] Gr. unfold fstored, fset_pos. cbn [dr_pos dr_value dr_success dr_status dr_num_fev dr_num_iter dr_simplex_history dr_fun_history] in *. f_equal. rewrite Per. clear -Gr. induction Gr; cbn [map2]; f_equal; auto. }
  assert (St : forall m, In m (map (fstored (fg_per g) (fg_boxes g)) (rs ++ map snd (frecorded (fk_log k)))) -> fstored (fg_per g) (fg_boxes g) m = m).
  { intros m Hm0. apply in_map_iff in Hm0 as (r & <- & Hr). apply I, stored_good; [apply (gf_boxes g GC)|]. rewrite Forall_forall in A5. auto. }
  unfold fnodes, frejects. rewrite N, Rj. split; rewrite <- (map_id (filter _ _)) at 2; apply map_ext_in; intros m Hm0; apply filter_In in Hm0 as (Hm0 & _); apply St; exact Hm0. Qed.
Print Assumptions C75_open_box.

(** *** The first restart can change a position *)
(** in the box [0, 1] a result at -2^-60 is stored at 1, and after a restart at 0; in the box
    [-5 * 2^-53, 3/2] one below the lower limit is stored at 1, and after a restart at 1 - 2^-53 *)
Definition c75_box1 : double * double := (of_int 0, of_int 1).
Definition c75_x1 : double := of_dyadic (-1) (-60).
Definition c75_box2 : double * double := (of_dyadic (-5) (-53), of_dyadic 3 (-1)).
Definition c75_x2 : double := of_dyadic (- (2 ^ 52 + 3)) (-53).
Lemma same_sf (x y : double) : B2SF x = B2SF y -> x = y.
Proof. apply B2SF_inj. Qed.
Open Scope R_scope.
Theorem C75_first_restart_refuted :
  good_box c75_box1 /\ good_coord c75_box1 c75_x1 /\ good_box c75_box2 /\ good_coord c75_box2 c75_x2 /\
  (let normalize := fnormalize (fst c75_box1) (snd c75_box1) in B2R (normalize c75_x1) = 1 /\ B2R (normalize (normalize c75_x1)) = 0) /\
  (let normalize := fnormalize (fst c75_box2) (snd c75_box2) in B2R (normalize c75_x2) = 1 /\ B2R (normalize (normalize c75_x2)) = 1 - bpow radix2 (-53)).
Proof.
  assert (S1 : fsub (snd c75_box1) (fst c75_box1) = of_int 1) by (apply same_sf; vm_compute; reflexivity).
  assert (S2 : fsub (snd c75_box2) (fst c75_box2) = of_dyadic (3 * 2 ^ 51 + 2) (-52)) by (apply same_sf; vm_compute; reflexivity).
  destruct (of_int_val 0 ltac:(lia)) as (F0 & V0). destruct (of_int_val 1 ltac:(lia)) as (F1 & V1). destruct (of_dyadic_val (-1) (-60) ltac:(lia) ltac:(lia)) as (Fx & Vx).
  destruct (of_dyadic_val (-5) (-53) ltac:(lia) ltac:(lia)) as (Fl & Vl). destruct (of_dyadic_val 3 (-1) ltac:(lia) ltac:(lia)) as (Fh & Vh). destruct (of_dyadic_val (- (2 ^ 52 + 3)) (-53) ltac:(lia) ltac:(lia)) as (Fy & Vy).
  destruct (of_dyadic_val (3 * 2 ^ 51 + 2) (-52) ltac:(lia) ltac:(lia)) as (Fs & Vs).
  assert (B400 : 1024 <= bpow radix2 400) by (change 1024 with (bpow radix2 10); apply bpow_le; lia). assert (B4 : bpow radix2 (-400) <= 1) by (change 1 with (bpow radix2 0); apply bpow_le; lia). pose proof (bpow_gt_0 radix2 (-400)) as P4.
  assert (B60 : bpow radix2 (-60) <= 1) by (change 1 with (bpow radix2 0); apply bpow_le; lia). pose proof (bpow_gt_0 radix2 (-60)) as P60.
  assert (E53 : bpow radix2 (-53) <= / 1024) by (change (/ 1024) with (bpow radix2 (-10)); apply bpow_le; lia). pose proof (bpow_gt_0 radix2 (-53)) as P53.
  assert (Vs1 : 1 <= val (of_dyadic (3 * 2 ^ 51 + 2) (-52))). { rewrite Vs. replace 1 with (IZR (2 ^ 52) * bpow radix2 (-52)) by (rewrite p52, <- bpow_plus; reflexivity). apply Rmult_le_compat_r; [apply bpow_ge_0|]. apply IZR_le. lia. }
  assert (Vy1 : -1 <= val (of_dyadic (- (2 ^ 52 + 3)) (-53)) <= 0). { rewrite Vy. split; [|assert (IZR (- (2 ^ 52 + 3)) <= 0) by (apply IZR_le; lia); nra]. replace (-1) with (IZR (- 2 ^ 53) * bpow radix2 (-53)) by (rewrite opp_IZR, p53, Ropp_mult_distr_l_reverse, <- bpow_plus; reflexivity). apply Rmult_le_compat_r; [lra|]. apply IZR_le. lia. }
  split; [|split; [|split; [|split]]].
  - unfold good_box, fbox_size. rewrite S1. unfold c75_box1. cbn [fst snd]. rewrite V0, V1. split; [exact F0|]. split; [exact F1|]. split; [lra|]. rewrite Rabs_R0, Rabs_pos_eq by lra. split; [lra|]. split; lra.
  - unfold good_coord, fbox_size. rewrite S1. unfold c75_box1, c75_x1. cbn [fst snd]. rewrite V0, V1, Vx. split; [exact Fx|]. change (bpow radix2 10) with 1024. apply Rabs_le. lra.
  - unfold good_box, fbox_size. rewrite S2. unfold c75_box2. cbn [fst snd]. rewrite Vl, Vh. split; [exact Fl|]. split; [exact Fh|]. change (bpow radix2 (-1)) with (/ 2). split; [lra|]. split; [apply Rabs_le; lra|]. split; [apply Rabs_le; lra|lra].
  - unfold good_coord, fbox_size. rewrite S2. unfold c75_box2, c75_x2. cbn [fst snd]. rewrite Vl. split; [exact Fy|]. change (bpow radix2 10) with 1024. apply Rabs_le. lra.
  - split; cbv zeta.
    + assert (E1 : fnormalize (fst c75_box1) (snd c75_box1) c75_x1 = of_int 1) by (apply same_sf; vm_compute; reflexivity). rewrite E1. split; [exact V1|]. assert (E2 : fnormalize (fst c75_box1) (snd c75_box1) (of_int 1) = of_int 0) by (apply same_sf; vm_compute; reflexivity). rewrite E2. exact V0.
    + assert (E1 : fnormalize (fst c75_box2) (snd c75_box2) c75_x2 = of_int 1) by (apply same_sf; vm_compute; reflexivity). rewrite E1. split; [exact V1|].
      assert (E2 : fnormalize (fst c75_box2) (snd c75_box2) (of_int 1) = of_dyadic (2 ^ 53 - 1) (-53)) by (apply same_sf; vm_compute; reflexivity). rewrite E2. rewrite (proj2 (of_dyadic_val (2 ^ 53 - 1) (-53) ltac:(lia) ltac:(lia))).
      rewrite minus_IZR, p53, Rmult_minus_distr_r, <- bpow_plus. change (bpow radix2 (53 + -53)) with 1. lra. Qed.
Print Assumptions C75_first_restart_refuted.

(** hypotheses met: a search in [0, 1]; a minimization ends at -2^-60, is stored at 1, and the
    search is restarted: the node is now at 0; restarted once more: it still is at 0 *)
Definition c75_events : list fevent := [FTurn 0; FDone 0 (ndf (-1) (-60))].
Definition c75_positions (c : fcontainer) : list (list SpecFloat.spec_float) := map (fun r => map B2SF (dr_pos r)) (cl_flat (fc_nodes c)).
Definition c75_again (k : fctrl) : res fstate := fcreate_state true ex_boxes fone c62_quarter (fun l => l) (Some (fk_state k)) [] false.
Definition c75_run : option (list (list SpecFloat.spec_float) * list (list SpecFloat.spec_float) * list (list SpecFloat.spec_float)) :=
  match fcreate_state true ex_boxes fone c62_quarter (fun l => l) None ex_mesh false with
  | Ok s => match frun_events (ex_fg 2) (fstart s) c75_events with
    | Some k => match c75_again k with
      | Ok s1 => match c75_again (fstart s1) with
        | Ok s2 => Some (c75_positions (fs_result (fk_state k)), c75_positions (fs_result s1), c75_positions (fs_result s2))
        | Err _ => None end
      | Err _ => None end
    | None => None end
  | Err _ => None end.
Lemma c75_run_val : c75_run = Some ([[B2SF (of_int 1)]], [[B2SF (of_int 0)]], [[B2SF (of_int 0)]]).
Proof. vm_compute. reflexivity. Qed.
Theorem C75_hypotheses_met : exists s k s1 s2 found, good_fconfig (ex_fg 2) /\ good_fstart (ex_fg 2) s [] [] (map norm_fsimplex ex_mesh) [] /\
  Forall (fun x => norm_fsimplex x = x) (map norm_fsimplex ex_mesh) /\ freaches (ex_fg 2) s k /\
  c75_again k = Ok s1 /\ c75_again (fstart s1) = Ok s2 /\ sessions (ex_fg 2) s [] 2 found (fstart s2) /\ sessions (ex_fg 2) s1 [] 1 [] (fstart s2) /\ List.length found = 1%nat /\
  map (fun r => map B2SF (dr_pos r)) (fnodes k) = [[B2SF (of_int 1)]] /\ map (fun r => map B2SF (dr_pos r)) (fnodes (fstart s1)) = [[B2SF (of_int 0)]] /\ map (fun r => map B2SF (dr_pos r)) (fnodes (fstart s2)) = [[B2SF (of_int 0)]].
Proof. pose proof c75_run_val as E. unfold c75_run in E. destruct (fcreate_state true ex_boxes fone c62_quarter (fun l => l) None ex_mesh false) as [s|] eqn:Es; [|discriminate E].
  destruct (frun_events (ex_fg 2) (fstart s) c75_events) as [k|] eqn:Ek; [|discriminate E]. destruct (c75_again k) as [s1|] eqn:E1; [|discriminate E]. destruct (c75_again (fstart s1)) as [s2|] eqn:E2; [|discriminate E].
  destruct ex_mesh_good as (M1 & M2). destruct (C64_fresh_start (ex_fg 2) (fun l => l) ex_mesh false (ex_fg_good 2) M1 M2) as (s' & E' & G & Nq). change (fcreate_state true ex_boxes fone c62_quarter (fun l => l) None ex_mesh false = Ok s') in E'. rewrite Es in E'. injection E' as <-.
  assert (R : freaches (ex_fg 2) s k).
  { exists c75_events. split; [|exact Ek]. constructor; [exact I|]. constructor; [|constructor]. cbn [valid_fevent]. apply ex_event_good; lia. }
  assert (R0 : forall s, freaches (ex_fg 2) s (fstart s)) by (intros s0; exists []; split; [constructor|reflexivity]).
  assert (S2 : forall n found s0 k0 s1, sessions (ex_fg 2) s0 [] n found k0 -> c75_again k0 = Ok s1 -> sessions (ex_fg 2) s0 [] (S n) (found ++ []) (fstart s1)).
  { intros n found s0 k0 s3 Se Ec. apply (se_restart (ex_fg 2) s0 [] n found k0 (fun l => l) [] false s3 (fstart s3) Se); [intros; apply Permutation_refl|constructor|constructor|exact Ec|apply R0]. }
  exists s, k, s1, s2, (([] ++ map snd (frecorded (fk_log k))) ++ []) . split; [apply ex_fg_good|]. split; [exact G|]. split; [exact Nq|]. split; [exact R|]. split; [exact E1|]. split; [exact E2|].
  split; [|split; [|split]].
  - pose proof (S2 _ _ _ _ _ (S2 _ _ _ _ _ (se_first (ex_fg 2) s [] k R) E1) E2) as X. rewrite !app_nil_r in *. exact X.
  - pose proof (S2 _ _ _ _ _ (se_first (ex_fg 2) s1 [] (fstart s1) (R0 s1)) E2) as X. exact X.
  - rewrite app_nil_r. cbn [app]. rewrite map_length. assert (L : ex_run (ex_fg 2) ex_mesh c75_events = Some [1; 2; 1; 0; 0; 0; 0]%nat) by (vm_compute; reflexivity).
    destruct (ex_run_inv _ _ _ _ L) as (sa & ka & Ea & Eb & Ec). change (fcreate_state true ex_boxes fone c62_quarter (fun l => l) None ex_mesh false = Ok sa) in Ea. rewrite Es in Ea. injection Ea as <-. rewrite Ek in Eb. injection Eb as <-. exact (f_equal (fun l => nth 2 l 0%nat) Ec).
  - injection E as A1 A2 A3. split; [exact A1|]. split; [exact A2|exact A3]. Qed.
Print Assumptions C75_hypotheses_met.
