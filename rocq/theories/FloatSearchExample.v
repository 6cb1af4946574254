(** Concrete searches in double precision, for the hypotheses and findings of C64. *)
From Coq Require Import ZArith Reals List.
From Flocq Require Import Core BinarySingleNaN.
From Verif Require Import Base BaseFacts CoordSys CellList Queue Float FloatFacts FloatVector NelderMead FloatMin FloatCell SpecFloatCell FloatCellNum FloatCellFacts PropFloatCell FloatCheck FloatController SpecFloatSearch FloatStencil.
From Coq Require Import Lra.
Import ListNotations.
Open Scope list_scope.
Open Scope R_scope.

Definition d1 (m e : Z) : fpoint := [of_dyadic m e].
Definition ex_boxes : list (double * double) := [(B754_zero false, fone)].
(** two simplices, 3/8 to 1/4 below and above the position *)
Definition ex_stencil : list fsimplex := [[d1 (-3) (-3); d1 (-1) (-2)]; [d1 1 (-2); d1 3 (-3)]].
Definition ex_fg (par : nat) : fconfig := mk_fconfig true ex_boxes fone c62_quarter (Some ex_stencil) par true 0 0.
Definition ex_mesh : list fsimplex := [[d1 1 (-3); d1 3 (-3)]; [d1 5 (-3); d1 7 (-3)]].
(** (running, started, recorded, discarded, refined, skipped, phase) *)
Definition fphase_num (p : fphase) : nat := match p with FRunning => 0 | FDraining => 1 | FReturned => 2 | FRaised KeyError => 3 | FRaised _ => 4 end.
Definition fsummary (k : fctrl) : list nat :=
  let l := fk_log k in [frunning_now k; length (fstarted l); length (frecorded l); length (fdiscarded l); length (frefined l); length (fskipped l); fphase_num (fk_phase k)].
Definition ex_run (g : fconfig) (mesh : list fsimplex) (evs : list fevent) : option (list nat) :=
  match fcreate_state (fg_per g) (fg_boxes g) (fg_gap g) (fg_cutoff g) (fun l => l) None mesh false with
  | Ok s => match frun_events g (fstart s) evs with Some k => Some (fsummary k) | None => None end
  | Err _ => None
  end.
Definition ndf (m e : Z) : dmin_result := result_at (d1 m e) (B754_zero false).
(** the first minimization finds a node at 1/4, the second (outside the box, at 5/4) the same;
    one refinement; both its simplices are minimized *)
Definition ex_events : list fevent := [FTurn 0; FDone 0 (ndf 1 (-2)); FDone 1 (ndf 5 (-2)); FTurn 0; FDone 0 (ndf 3 (-2)); FFail 1 KeyError].
Definition ex_events2 : list fevent := [FTurn 0; FDone 0 (ndf 1 (-2)); FDone 1 (ndf 5 (-2)); FTurn 0; FDone 0 (result_at (d1 3 (-2)) (of_dyadic 4 0)); FDone 1 (ndf 9 (-5)); FTurn 0; FGather 0].
Lemma ex_failed : ex_run (ex_fg 2) ex_mesh ex_events = Some [0; 4; 3; 0; 1; 0; 0]%nat.
Proof. vm_compute. reflexivity. Qed.
Lemma ex_ended : ex_run (ex_fg 2) ex_mesh ex_events2 = Some [0; 4; 4; 0; 1; 0; 2]%nat.
Proof. vm_compute. reflexivity. Qed.

(** a feature size below the spacing of doubles in the box [1, 2] *)
Definition tiny_stencil : list fsimplex := fscale_stencil (of_dyadic 1 (-56)) [[d1 (-2) 0; d1 (-1) 0]; [d1 1 0; d1 2 0]; [d1 2 0; d1 3 0]].
Definition tiny_g : fconfig := mk_fconfig true [(fone, of_dyadic 2 0)] fone (of_dyadic 1 (-56)) (Some tiny_stencil) 2 true 0 0.
Definition tiny_mesh : list fsimplex := [[d1 9 (-3); d1 11 (-3)]].
Definition tiny_events : list fevent := [FTurn 0; FDone 0 (ndf 3 (-1)); FTurn 0].
Lemma tiny_over_limit : ex_run tiny_g tiny_mesh tiny_events = Some [3; 4; 1; 0; 1; 0; 0]%nat.
Proof. vm_compute. reflexivity. Qed.
Lemma tiny_keyerror : ex_run tiny_g tiny_mesh (tiny_events ++ [FDone 0 (ndf 3 (-1)); FDone 1 (ndf 3 (-1)); FTurn 0]) = Some [1; 4; 3; 0; 1; 0; 3]%nat.
Proof. vm_compute. reflexivity. Qed.

Lemma ex_run_inv g mesh evs l : ex_run g mesh evs = Some l -> exists s k, fcreate_state (fg_per g) (fg_boxes g) (fg_gap g) (fg_cutoff g) (fun l => l) None mesh false = Ok s /\ frun_events g (fstart s) evs = Some k /\ fsummary k = l.
Proof. unfold ex_run. destruct (fcreate_state _ _ _ _ _ _ _ _) as [s|]; [|discriminate]. destruct (frun_events g (fstart s) evs) as [k|] eqn:E; [|discriminate]. intros [= <-]. exists s, k. auto. Qed.

(** the hypotheses of C64 *)
Lemma ex_boxes_good : Forall good_box ex_boxes.
Proof. exact (Forall_inv_tail c62_boxes2_good). Qed.
Lemma ex_size : fbox_size (B754_zero false, fone) = 1 /\ val (B754_zero false) = 0.
Proof. split; [|reflexivity]. exact (proj1 (Forall_inv (Forall_inv_tail c62_sizes))). Qed.
Lemma ex_stencil_resolved : resolved_stencil ex_boxes ex_stencil.
Proof. destruct ex_size as (Es & El).
  assert (Er : resolution (B754_zero false, fone) = pw (-41)). { unfold resolution. cbn [fst]. rewrite Es, El, Rabs_R0, Rplus_0_l, Rmult_1_r. rewrite <- bpow_plus. reflexivity. }
  assert (B : pw (-41) < / 4) by (change (/ 4) with (pw (-2)); apply bpow_lt; lia).
  assert (V : forall m e, (-3 <= e <= -2)%Z -> (Z.abs m <= 3)%Z -> fin (of_dyadic m e) /\ val (of_dyadic m e) = IZR m * pw e) by (intros; apply of_dyadic_val; lia).
  assert (E2 : pw (-2) = / 4) by reflexivity. assert (E3 : pw (-3) = / 8) by reflexivity.
  assert (C : forall m e, (-3 <= e <= -2)%Z -> (Z.abs m <= 3)%Z -> Forall2 (fun b x => is_finite x = true /\ (Rabs (B2R x) <= bpow radix2 8 * fbox_size b)%R) ex_boxes (d1 m e)).
  { intros m e He Hm. destruct (V m e He Hm) as (F & Ev). constructor; [|constructor]. split; auto. rewrite Es, Ev, Rmult_1_r. change (pw 8) with 256. assert (0 <= pw e <= 1) by (split; [apply bpow_ge_0|change 1 with (pw 0); apply pw_le; lia]).
    assert (-3 <= IZR m <= 3) by (split; [apply (IZR_le (-3))|apply (IZR_le m 3)]; lia). apply Rabs_le. nra. }
  assert (AP : forall m e n f, (-3 <= e <= -2)%Z -> (Z.abs m <= 3)%Z -> (-3 <= f <= -2)%Z -> (Z.abs n <= 3)%Z -> / 4 <= Rabs (IZR m * pw e - IZR n * pw f) -> apart ex_boxes (d1 m e) (d1 n f)).
  { intros m e n f H1 H2 H3 H4 L. exists 0%nat, (B754_zero false, fone), (of_dyadic m e), (of_dyadic n f). split; [reflexivity|]. split; [reflexivity|]. split; [reflexivity|].
    rewrite (proj2 (V m e H1 H2)), (proj2 (V n f H3 H4)), Er. lra. }
  split; [constructor; [rewrite Er, Es; lra|constructor]|]. split.
  - constructor; [|constructor; [|constructor]]; (constructor; [apply C; lia|constructor; [apply C; lia|constructor]]).
  - assert (A : forall w, In w [d1 1 (-2); d1 3 (-3)] -> apart ex_boxes (d1 (-3) (-3)) w).
    { intros w [<- |[<- |[]]]; apply AP; try lia; rewrite ?E2, ?E3; rewrite Rabs_left by lra; lra. }
    intros i j s t N Ei Ej. destruct i as [|[|i]], j as [|[|j]]; try congruence; cbn [nth_error ex_stencil] in Ei, Ej; try (destruct i; discriminate); try (destruct j; discriminate).
    + injection Ei as <-. injection Ej as <-. exists (d1 (-3) (-3)). left. split; [left; reflexivity|exact A].
    + injection Ei as <-. injection Ej as <-. exists (d1 (-3) (-3)). right. split; [left; reflexivity|exact A]. Qed.
Lemma quarter_good : good_cutoff c62_quarter.
Proof. apply C62_hypotheses_met. Qed.
Lemma ex_fg_good par : good_fconfig (ex_fg par).
Proof. constructor; cbn [fg_boxes fg_cutoff fg_per fg_stencil ex_fg].
  - apply ex_boxes_good.
  - cbn. lia.
  - apply quarter_good.
  - auto.
  - intros st p [= <-] Hp. apply (stencil_moved true); auto using ex_boxes_good, ex_stencil_resolved. Qed.
Lemma ex_mesh_good : Forall (Forall (good_position ex_boxes)) ex_mesh /\ NoDup (map norm_fsimplex ex_mesh).
Proof. destruct ex_size as (Es & El). assert (G : forall m e, (-10 <= e <= 0)%Z -> (Z.abs m <= 100)%Z -> good_position ex_boxes (d1 m e)).
  { intros m e He Hm. constructor; [|constructor]. apply good_dyadic; auto. cbn [fst]. rewrite El. lra. }
  split; [repeat (constructor; [repeat (constructor; [apply G; lia|]); constructor|]); constructor|].
  assert (N : map (map (map B2SF)) (map norm_fsimplex ex_mesh) = map (map (map B2SF)) ex_mesh) by (vm_compute; reflexivity).
  apply (NoDup_map_inv (map (map B2SF))). rewrite N. vm_compute. repeat constructor; cbn; intuition discriminate. Qed.
Lemma ex_event_good m e v : (-100 <= e <= 0)%Z -> (Z.abs m <= 100)%Z -> fwithin 9 ex_boxes (dr_pos (result_at (d1 m e) v)).
Proof. intros He Hm. destruct ex_size as (Es & El). constructor; [|constructor]. destruct (of_dyadic_val m e ltac:(lia) ltac:(lia)) as (F & V). split; auto. cbn [fst]. rewrite V, Es, El, Rmult_1_r, Rminus_0_r. change (pw 9) with 512.
  assert (0 <= pw e <= 1) by (split; [apply bpow_ge_0|change 1 with (pw 0); apply pw_le; lia]). assert (-100 <= IZR m <= 100) by (split; [apply (IZR_le (-100))|apply (IZR_le m 100)]; lia). apply Rabs_le. nra. Qed.

(** ** A finite run that returned is a fair run (followed by idling) *)
Lemma frun_events_app g evs evs' : forall k k', frun_events g k (evs ++ evs') = Some k' -> exists k1, frun_events g k evs = Some k1 /\ frun_events g k1 evs' = Some k'.
Proof. induction evs as [|e evs IH]; cbn; intros k k' R; [eauto|]. destruct (fstep g k e); [eauto|discriminate]. Qed.
Section Finite.
  Variables (g : fconfig) (s : fstate) (evs : list fevent) (pick : nat) (kf : fctrl).
  Hypothesis V : Forall (valid_fevent (fg_boxes g)) (evs ++ [FGather pick]).
  Hypothesis R : frun_events g (fstart s) (evs ++ [FGather pick]) = Some kf.
  Hypothesis Ph : fk_phase kf = FReturned.
  Hypothesis T : funfinished kf = [].
  Let all := evs ++ [FGather pick].
  Definition fin_k (i : nat) : fctrl := match frun_events g (fstart s) (firstn i (evs ++ [FGather pick])) with Some k => k | None => fstart s end.
  Definition fin_ev (i : nat) : fevent := nth i (evs ++ [FGather pick]) FIdle.
  Lemma fin_run i : frun_events g (fstart s) (firstn i all) = Some (fin_k i).
  Proof. unfold fin_k. fold all. pose proof R as R'. fold all in R'. rewrite <- (firstn_skipn i all) in R'. apply frun_events_app in R' as (k1 & E & _). rewrite E. reflexivity. Qed.
  Lemma firstn_snoc {A} (l : list A) i d : (i < List.length l)%nat -> firstn (Datatypes.S i) l = firstn i l ++ [nth i l d].
  Proof. revert l. induction i as [|i IH]; intros [|a l] L; cbn in L; try lia; [reflexivity|]. cbn [firstn nth app]. f_equal. apply IH. lia. Qed.
  Lemma fin_last i : (List.length all <= i)%nat -> fin_k i = kf.
  Proof. intros L. pose proof (fin_run i) as X. rewrite firstn_all2 in X by auto. unfold all in X. rewrite R in X. injection X as <-. reflexivity. Qed.
  Lemma finite_fair : ffair_run g s fin_k fin_ev.
  Proof. constructor.
    - reflexivity.
    - intros i. destruct (Nat.lt_ge_cases i (List.length all)) as [L|L].
      + split; [rewrite Forall_forall in V; apply V; apply nth_In; auto|].
        pose proof (fin_run (Datatypes.S i)) as X. rewrite (firstn_snoc all i FIdle L) in X. apply frun_events_app in X as (k1 & E1 & E2). rewrite fin_run in E1. injection E1 as <-.
        cbn [frun_events] in E2. unfold fin_ev. fold all. destruct (fstep g (fin_k i) (nth i all FIdle)); [|discriminate]. injection E2 as ->. reflexivity.
      + unfold fin_ev. fold all. rewrite nth_overflow by auto. split; [exact Coq.Init.Logic.I|]. rewrite !fin_last by lia. reflexivity.
    - intros i x _. exists (i + List.length all)%nat. split; [lia|]. rewrite fin_last by lia. rewrite T. auto.
    - intros i _. exists (i + List.length all)%nat, 0%nat. split; [lia|]. rewrite fin_last by lia. rewrite Ph. discriminate.
    - intros i Pi. destruct (Nat.lt_ge_cases i (List.length all)) as [L|L]; [|rewrite fin_last, Ph in Pi by auto; discriminate].
      exists (List.length evs), pick. unfold all in L. rewrite app_length in L. cbn in L. split; [lia|]. unfold fin_ev. rewrite app_nth2, Nat.sub_diag by lia. reflexivity. Qed.
End Finite.
