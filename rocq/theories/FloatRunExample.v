(** A complete search in double precision with actual minimizations (for the hypotheses of C67):
    the potential is the distance from 1/4 in the periodic box [0, 1], as computed. *)
From Coq Require Import ZArith Reals List.
From Flocq Require Import Core BinarySingleNaN.
From Verif Require Import Base BaseFacts CoordSys CellList Queue Float FloatFacts FloatVector FloatVectorFacts NelderMead FloatMin SpecFloatMin FloatMinExtra FloatOrder FloatCell SpecFloatCell FloatCellNum FloatCellFacts PropFloatCell FloatCheck FloatController SpecFloatSearch SpecFloatRun FloatStencil FloatSearchExample.
From Coq Require Import Lra.
Import ListNotations.
Open Scope list_scope.

Definition run_f (y : fpoint) : double :=
  match y with [c] => let d := fdelta (B754_zero false, fone) c c62_quarter in if is_nan d then fone else d | _ => fone end.
Definition run_evals (y : fpoint) (v : double) : Prop := v = run_f y.
Definition run_raises (y : fpoint) (e : exn) : Prop := False.
Definition run_gap : double := of_dyadic 1 (-4).
Definition run_p : dparams := mk_dparams (of_dyadic 1 (-5)) (of_dyadic 1 (-5)) None None None false.
Definition run_g : fconfig := mk_fconfig true ex_boxes run_gap c62_quarter (Some ex_stencil) 2 true 0 0.
Definition run_c : res fcontainer := fcontainer_new true ex_boxes run_gap c62_quarter [ndf 1 (-2)] [].
(** the outcome of minimizing a simplex, without and with the fake potential *)
Definition run_min (two : bool) (x : fsimplex) : option dmin_result :=
  if two then
    match run_c with
    | Ok c => match drun_two_step stable_dargsort np_min (fun _ y => Ok (run_f y)) (fun _ y => ffake_potential c c62_quarter y) run_p x with Ok (_, (r, _)) => Some r | Err _ => None end
    | Err _ => None
    end
  else match droot_nelder_mead stable_dargsort np_min (fun _ y => Ok (run_f y)) run_p x with Ok (r, _) => Some r | Err _ => None end.
Definition in_reach (y : fpoint) : bool := match y with [c] => is_finite c && dle (Babs c) (of_dyadic 8 0) | _ => false end.
(** events whose results are computed *)
Inductive cevent := CTurn | CDone (i : nat) (two : bool) | CGather.
Definition run_event (k : fctrl) (ev : cevent) : option fevent :=
  match ev with
  | CTurn => Some (FTurn 0)
  | CGather => Some (FGather 0)
  | CDone i two =>
    match nth_error (fk_tasks k) i with
    | Some (mk_ftask x FPending) => match run_min two x with Some r => if in_reach (dr_pos r) then Some (FDone i r) else None | None => None end
    | _ => None
    end
  end.
Fixpoint run_search (k : fctrl) (evs : list cevent) : option fctrl :=
  match evs with
  | [] => Some k
  | ev :: evs' => match run_event k ev with Some e => match fstep run_g k e with Some k' => run_search k' evs' | None => None end | None => None end
  end.
Definition run_events : list cevent := [CTurn; CDone 0 false; CDone 1 false; CTurn; CDone 0 false; CDone 1 true; CTurn; CGather].
Definition run_summary : option (list nat * list (list SpecFloat.spec_float)) :=
  match fcreate_state true ex_boxes run_gap c62_quarter (fun l => l) None ex_mesh false with
  | Ok s => match run_search (fstart s) run_events with Some k => Some (fsummary k, map (fun r => map B2SF (dr_pos r)) (cl_flat (fc_nodes (fs_result (fk_state k))))) | None => None end
  | Err _ => None
  end.
(** four nodes, three at 1/4 and the one found with the fake potential at 31/128 *)
Lemma run_computed : run_summary = Some ([0; 4; 4; 0; 1; 0; 2]%nat, map (fun d : fpoint => map B2SF d) [d1 1 (-2); d1 1 (-2); d1 1 (-2); d1 31 (-7)]).
Proof. vm_compute. reflexivity. Qed.

Lemma run_inv l n : run_summary = Some (l, n) -> exists s k, fcreate_state (fg_per run_g) (fg_boxes run_g) (fg_gap run_g) (fg_cutoff run_g) (fun l => l) None ex_mesh false = Ok s /\ run_search (fstart s) run_events = Some k /\
  fsummary k = l /\ map (fun r => map B2SF (dr_pos r)) (cl_flat (fc_nodes (fs_result (fk_state k)))) = n.
Proof. unfold run_summary. destruct (fcreate_state _ _ _ _ _ _ _ _) as [s|]; [|discriminate]. destruct (run_search (fstart s) run_events) as [k|] eqn:E; [|discriminate]. intros [= <- <-]. exists s, k. auto. Qed.

Open Scope R_scope.
Lemma in_reach_within y : in_reach y = true -> fwithin 9 ex_boxes y /\ good_position ex_boxes y.
Proof. destruct y as [|c [|? ?]]; try discriminate. cbn [in_reach]. intros H. apply andb_true_iff in H as (F & L). destruct ex_size as (Es & El). destruct (of_dyadic_val 8 0 ltac:(lia) ltac:(lia)) as (F8 & V8).
  unfold dle in L. rewrite Bleb_correct in L; [|rewrite is_finite_Babs; auto|auto]. pose proof (Rle_bool_spec (val (Babs c)) (val (of_dyadic 8 0))) as S. rewrite L in S. inversion S as [B|]. rewrite B2R_Babs, V8 in B. change (bpow radix2 0) with 1 in B.
  assert (9 <= bpow radix2 9) by (change (bpow radix2 9) with 512; lra). assert (9 <= bpow radix2 10) by (change (bpow radix2 10) with 1024; lra).
  split; (constructor; [|constructor]); split; auto; rewrite Es, Rmult_1_r; cbn [fst]; rewrite El, Rminus_0_r; lra. Qed.
Lemma run_reliable c : run_c = Ok c -> reliable (fg_per run_g) (fg_boxes run_g) (fg_gap run_g) (fg_cutoff run_g) [ndf 1 (-2)] [] c.
Proof. intros E. split; [apply ex_boxes_good|]. split; [cbn; lia|]. split; [apply quarter_good|]. split; [left; reflexivity|]. split; [|split; [constructor|constructor; exact E]].
  constructor; [|constructor]. cbn. apply (proj2 (in_reach_within (d1 1 (-2)) ltac:(vm_compute; reflexivity))). Qed.
Lemma run_min_ok two x r : run_min two x = Some r -> fminimized run_g run_p run_evals run_raises x (Ok r).
Proof. unfold run_min. intros H. exists stable_dargsort, np_min, (fun _ y => Ok (run_f y)). split; [exact stable_dargsort_ok|]. split; [exact np_min_ok|]. split; [intros k y v [= <-]; reflexivity|]. split; [discriminate|].
  destruct two.
  - right. destruct run_c as [c|] eqn:Ec; [|discriminate]. exists (fun _ y => ffake_potential c c62_quarter y). split; [intros _ y; exists [ndf 1 (-2)], [], c; split; [apply run_reliable; exact Ec|reflexivity]|].
    destruct (drun_two_step _ _ _ _ _ _) as [[[r1 w1] [r2 w2]]|]; [|discriminate]. injection H as <-. exists r1, w1, w2. reflexivity.
  - left. destruct (droot_nelder_mead _ _ _ _ _) as [[r1 w1]|]; [|discriminate]. injection H as <-. exists w1. reflexivity. Qed.
Lemma run_honest s evs : forall k k', fsearch run_g run_p run_evals run_raises s k -> run_search k evs = Some k' -> fsearch run_g run_p run_evals run_raises s k'.
Proof. induction evs as [|ev evs IH]; cbn [run_search]; intros k k' Sk R; [injection R as <-; auto|].
  destruct (run_event k ev) as [e|] eqn:Ee; [|discriminate]. destruct (fstep run_g k e) as [k1|] eqn:Es; [|discriminate]. eapply IH; [|exact R]. eapply fsearch_step; [exact Sk| |exact Es].
  destruct ev as [|i two|]; cbn [run_event] in Ee; try (injection Ee as <-; exact Logic.I).
  destruct (nth_error (fk_tasks k) i) as [[x [| |]]|] eqn:Et; try discriminate. destruct (run_min two x) as [r|] eqn:Er; [|discriminate]. destruct (in_reach (dr_pos r)) eqn:Ei; [|discriminate]. injection Ee as <-.
  split; [apply in_reach_within; auto|]. intros x' E'. rewrite Et in E'. injection E' as <-. eapply run_min_ok; eauto. Qed.
Lemma run_g_good : good_fconfig run_g.
Proof. constructor; cbn [fg_boxes fg_cutoff fg_per fg_stencil run_g].
  - apply ex_boxes_good.
  - cbn. lia.
  - apply quarter_good.
  - auto.
  - intros st p [= <-] Hp. apply (stencil_moved true); auto using ex_boxes_good, ex_stencil_resolved. Qed.
Lemma run_proper : fproper run_g (map norm_fsimplex ex_mesh).
Proof. split.
  - assert (E : map (map (map B2SF)) (map norm_fsimplex ex_mesh) = map (map (map B2SF)) ex_mesh) by (vm_compute; reflexivity). apply Forall_forall. intros x Hx.
    apply (in_map (map (map B2SF))) in Hx. rewrite E in Hx. assert (G : forall y : fsimplex, In (map (map B2SF) x) [map (map B2SF) y] -> is_dsimplex 1 y -> is_dsimplex 1 x).
    { intros y [H|[]] (A & B & C). split; auto. split; [apply (f_equal (@List.length _)) in H; rewrite !map_length in H; exact (eq_trans (eq_sym H) B)|]. clear A B Hx E. revert y H C. induction x as [|u x IH]; intros [|v y] H C; try discriminate; [constructor|]. apply Forall_cons_iff in C as (C1 & C2). injection H as H1 H2. constructor.
      - apply (f_equal (@List.length _)) in H1; rewrite !map_length in H1; exact (eq_trans (eq_sym H1) C1).
      - eapply IH; eauto. }
    cbn [map ex_mesh In] in Hx. destruct Hx as [H|[H|[]]]; [apply (G [d1 1 (-3); d1 3 (-3)])|apply (G [d1 5 (-3); d1 7 (-3)])]; try (left; exact H); (split; [lia|]; split; [reflexivity|]; repeat constructor).
  - intros st [= <-]. repeat (constructor; [split; [cbn; lia|]; split; [reflexivity|]; repeat constructor|]). constructor. Qed.

(** ** The real function: the distance from the nearest integer plus 1/4 *)
Definition int_dist (u : R) : R := Rmin (u - IZR (Zfloor u)) (IZR (Zfloor u) + 1 - u).
Lemma int_dist_le u k : int_dist u <= Rabs (u - IZR k).
Proof. unfold int_dist. pose proof (Zfloor_lb u) as A. pose proof (Zfloor_ub u) as B. destruct (Z_le_gt_dec k (Zfloor u)) as [H|H].
  - apply IZR_le in H. rewrite Rabs_pos_eq by lra. eapply Rle_trans; [apply Rmin_l|]. lra.
  - assert (H' : (Zfloor u + 1 <= k)%Z) by lia. apply IZR_le in H'. rewrite plus_IZR in H'. rewrite Rabs_left1 by lra. eapply Rle_trans; [apply Rmin_r|]. lra. Qed.
Lemma int_dist_ex u : exists k, int_dist u = Rabs (u - IZR k).
Proof. unfold int_dist, Rmin. pose proof (Zfloor_lb u) as A. pose proof (Zfloor_ub u) as B. destruct (Rle_dec _ _).
  - exists (Zfloor u). rewrite Rabs_pos_eq; lra.
  - exists (Zfloor u + 1)%Z. rewrite plus_IZR. rewrite Rabs_left1; lra. Qed.
Lemma int_dist_shift u j : int_dist (u + IZR j) = int_dist u.
Proof. apply Rle_antisym.
  - destruct (int_dist_ex u) as (k & ->). eapply Rle_trans; [apply (int_dist_le _ (k + j))|]. rewrite plus_IZR. right. f_equal. ring.
  - destruct (int_dist_ex (u + IZR j)) as (k & ->). eapply Rle_trans; [apply (int_dist_le _ (k - j))|]. rewrite minus_IZR. right. f_equal. ring. Qed.
Lemma int_dist_lip u v : Rabs (int_dist u - int_dist v) <= Rabs (u - v).
Proof. assert (G : forall a b, int_dist a <= int_dist b + Rabs (a - b)).
  { intros a b. destruct (int_dist_ex b) as (k & ->). eapply Rle_trans; [apply (int_dist_le a k)|]. replace (a - IZR k) with ((b - IZR k) + (a - b)) by ring. apply Rabs_triang. }
  pose proof (G u v). pose proof (G v u) as H'. rewrite (Rabs_minus_sym v u) in H'. apply Rabs_le. lra. Qed.
Definition run_F (x : list R) : R := int_dist (hd 0 x - / 4).
Lemma run_F_periodic : box_periodic ex_boxes run_F.
Proof. intros [|a [|? ?]] [|j [|? ?]] Lx Lj; try discriminate. unfold run_F. cbn [shifted ex_boxes hd]. rewrite (proj1 ex_size), Rmult_1_r. replace (a + IZR j - / 4) with (a - / 4 + IZR j) by ring. apply int_dist_shift. Qed.
Lemma run_F_lip : lipschitz 1 1 run_F.
Proof. intros [|a [|? ?]] [|b [|? ?]] La Lb; try discriminate. unfold run_F. cbn [sum_changes hd]. eapply Rle_trans; [apply int_dist_lip|]. replace (a - / 4 - (b - / 4)) with (a - b) by ring. lra. Qed.
Lemma run_f_F y v : run_evals y v -> fwithin 9 ex_boxes y -> is_finite v = true /\ Rabs (val v - run_F (map val y)) <= pw (-39).
Proof. intros -> H. inversion H as [|? c ? y' (Fc & Bc) H']; subst. inversion H'; subst. destruct ex_size as (Es & El). cbn [fst] in Bc. rewrite Es, El, Rminus_0_r, Rmult_1_r in Bc. cbn [run_f map]. unfold run_F. cbn [hd].
  set (b := (B754_zero false, fone) : double * double). pose proof (Forall_inv ex_boxes_good) as Gb. fold b in Gb, Es. change (fbox_size b) with (val (fsize (fst b) (snd b))) in Es.
  assert (Q : fin c62_quarter /\ val c62_quarter = / 4) by (destruct (of_dyadic_val 1 (-2) ltac:(lia) ltac:(lia)) as (A & B); split; [exact A|]; unfold c62_quarter; rewrite B; change (bpow radix2 (-2)) with (/ 4); ring). destruct Q as (Fq & Vq).
  destruct (size_ok b Gb) as (Fs & _). pose proof (tiny b Gb) as T. unfold fdelta. fold b. set (S := fsize (fst b) (snd b)) in *.
  assert (B : Rabs (val c62_quarter - val c) <= pw 11 * val S) by (rewrite Vq, Es, Rmult_1_r; change (pw 11) with 2048; change (bpow radix2 9) with 512 in Bc; rewrite abs_le in *; lra).
  destruct (diff_val b Gb c62_quarter c Fq Fc B) as (Fa & Ea). fold S in Ea. set (a := fsub c62_quarter c) in *. rewrite Es in *.
  destruct (np_mod_val a S Fa Fs ltac:(lra)) as (Fm & Vm & Rm & _). set (m := np_mod a S) in *. rewrite Es in *.
  assert (C : exists j e, val m = val a + IZR j + e /\ Rabs e <= pw (-53) + pw (-1075)).
  { set (q := Ztrunc (val a / 1)) in *. destruct (fmod_range (val a) 1 ltac:(lra)) as (R1 & R2). cbv zeta in R1, R2. fold q in R1, R2. rewrite Vm.
    destruct (Rlt_bool_spec (val a - IZR q * 1) 0) as [Hm|Hm].
    - exists (1 - q)%Z, (rnd (val a - IZR q * 1 + 1) - (val a - IZR q * 1 + 1)). split; [rewrite minus_IZR; ring|]. eapply Rle_trans; [apply rnd_rel|]. apply Rplus_le_compat_r.
      assert (- 1 < val a - IZR q * 1). { destruct (Rle_or_lt 0 (val a)); [specialize (R1 ltac:(lra)); lra|specialize (R2 ltac:(lra)); lra]. } rewrite Rabs_pos_eq by lra. pose proof (pw_pos (-53)). nra.
    - exists (- q)%Z, 0. split; [rewrite opp_IZR; ring|]. rewrite Rabs_R0. pose proof (pw_pos (-53)). pose proof (pw_pos (-1075)). lra. }
  destruct C as (j & e & Em & Be).
  destruct (fsub_val S m 1 ltac:(lia) Fs Fm) as (Fn & Vn); [rewrite Es; change (pw 1) with 2; rewrite abs_le; lra|]. rewrite Es in Vn. pose proof (rnd_rel (1 - val m)) as En. rewrite <- Vn in En. rewrite (Rabs_pos_eq (1 - val m)) in En by lra.
  destruct (fmin_val (fsub S m) m Fn Fm) as (Fd & Vd). assert (Nn : is_nan (fmin (fsub S m) m) = false) by (revert Fd; generalize (fmin (fsub S m) m); intros [ | | | ]; cbn; auto; discriminate). rewrite Nn. split; [exact Fd|].
  assert (S53 : pw (-53) <= / 8 * pw (-41)) by (change (/ 8) with (pw (-3)); rewrite pw_mul; apply pw_le; lia). assert (S60 : pw (-60) <= / 8 * pw (-41)) by (change (/ 8) with (pw (-3)); rewrite pw_mul; apply pw_le; lia).
  assert (E39 : pw (-39) = 4 * pw (-41)) by (change 4 with (pw 2); rewrite pw_mul; reflexivity). pose proof (pw_pos (-41)) as P41. pose proof (pw_pos (-53)) as P53.
  rewrite Rmult_1_r in *. rewrite Vd, E39.
  assert (D1 : Rabs (Rmin (val (fsub S m)) (val m) - Rmin (1 - val m) (val m)) <= / 4 * pw (-41)).
  { assert (Rabs (val (fsub S m) - (1 - val m)) <= / 4 * pw (-41)) by (rewrite abs_le in *; nra). unfold Rmin. destruct (Rle_dec _ _), (Rle_dec _ _); rewrite abs_le in *; lra. }
  assert (D2 : Rmin (1 - val m) (val m) = int_dist (val m)).
  { apply Rle_antisym.
    - destruct (int_dist_ex (val m)) as (k & ->). destruct (Z_le_gt_dec k 0) as [Hk|Hk].
      + apply IZR_le in Hk. rewrite Rabs_pos_eq by lra. eapply Rle_trans; [apply Rmin_r|]. lra.
      + assert (Hk' : (1 <= k)%Z) by lia. apply IZR_le in Hk'. rewrite Rabs_left1 by lra. eapply Rle_trans; [apply Rmin_l|]. lra.
    - apply Rmin_glb; [eapply Rle_trans; [apply (int_dist_le _ 1)|]; rewrite Rabs_left1; lra|eapply Rle_trans; [apply (int_dist_le _ 0)|]; rewrite Rabs_pos_eq; lra]. }
  assert (D3 : int_dist (val m) = int_dist (val a + e)) by (rewrite Em; replace (val a + IZR j + e) with (val a + e + IZR j) by ring; apply int_dist_shift).
  assert (D4 : int_dist (val c - / 4) = int_dist (/ 4 - val c)).
  { apply Rle_antisym; [destruct (int_dist_ex (/ 4 - val c)) as (k & ->)|destruct (int_dist_ex (val c - / 4)) as (k & ->)]; (eapply Rle_trans; [apply (int_dist_le _ (- k))|]; rewrite opp_IZR; right; rewrite <- Rabs_Ropp; f_equal; ring). }
  pose proof (int_dist_lip (val a + e) (/ 4 - val c)) as D5. rewrite Vq in Ea. rewrite D4. rewrite D2, D3 in D1.
  assert (D6 : Rabs (val a + e - (/ 4 - val c)) <= 2 * pw (-41)) by (rewrite abs_le in Ea, Be |- *; lra). pose proof (Rle_trans _ _ _ D5 D6) as D7. rewrite abs_le in D1, D7 |- *. lra. Qed.
