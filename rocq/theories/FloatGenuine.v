(** Searches in double precision whose results come from minimizations of an actual potential
    (compare SearchGenuine.v). *)
From Verif Require Import Base BaseFacts CoordSys CellList Queue QueueFacts SpecQueue.
From Coq Require Import ZArith Reals.
From Flocq Require Import Core BinarySingleNaN.
From Verif Require Import Float FloatFacts FloatVector FloatVectorFacts NelderMead FloatMin FloatOrder SpecFloatMin FloatMinFacts FloatMinProps FloatMinExtra FloatMinExt
  FloatCell SpecFloatCell FloatCellNum FloatCellFacts PropFloatCell FloatCheck PropFloatCheck FloatController SpecFloatSearch SpecFloatRun FloatSearchFacts FloatSearchSteps FloatSearchLog FloatSearchProps FloatSearchEnd FloatSearchStart.
From Coq Require Import Lra.
Open Scope list_scope.

Lemma norm_fsimplex_dsimplex n s : is_dsimplex n s -> is_dsimplex n (norm_fsimplex s).
Proof. intros (N & L & F). unfold norm_fsimplex. eapply is_dsimplex_perm; [apply Permutation_sym, sort_perm|]. split; auto. split; [rewrite map_length; auto|].
  rewrite Forall_forall in *. intros x Hx. apply in_map_iff in Hx as (y & <- & Hy). rewrite map_length. auto. Qed.
Lemma drun_pos_length argsort np_dmin func p n initial r w : dargsort_ok argsort -> is_dsimplex n initial ->
  droot_nelder_mead argsort np_dmin func p initial = Ok (r, w) -> length (dr_pos r) = n.
Proof. intros Hs Hi E. destruct (drun_status _ _ _ _ _ _ Hs Hi _ _ E) as (sim & h & _ & Si & Hp & _). rewrite <- Hp.
  destruct Si as (_ & L & F). destruct sim as [|x sim]; [discriminate|]. inversion F; auto. Qed.

Section Genuine.
  Variables (g : fconfig) (p : dparams) (evals : fpoint -> double -> Prop) (raises : fpoint -> exn -> Prop).
  Let n := length (fg_boxes g).
  Hypothesis GC : good_fconfig g.

  Lemma fminimized_ok x r : is_dsimplex n x -> fminimized g p evals raises x (Ok r) ->
    length (dr_pos r) = n /\ ((forall y v, evals y v -> v <> nan) -> exists v, evals (dr_pos r) v /\ same_number (dr_value r) v).
  Proof. intros Hx (argsort & np_dmin & func & Hs & Hm & He & _ & O).
    assert (Run : forall func' initial w, (forall k y v, func' k y = Ok v -> evals y v) -> is_dsimplex n initial -> droot_nelder_mead argsort np_dmin func' p initial = Ok (r, w) ->
      length (dr_pos r) = n /\ ((forall y v, evals y v -> v <> nan) -> exists v, evals (dr_pos r) v /\ same_number (dr_value r) v)).
    { intros func' initial w He' Hi E. split; [eapply drun_pos_length; eauto|]. intros N. destruct (drun_log _ _ _ _ _ _ Hs Hi _ _ E) as [_ L].
      assert (L' : forall y v, In (y, v) (dw_log w) -> evals y v). { intros y v H. apply In_nth_error in H as (i & H). apply L in H. eauto. }
      destruct (drun_best _ _ _ _ _ _ Hs Hm Hi _ _ E) as ((v & Iv & Sv) & _); [|exists v; auto]. apply Forall_forall. intros [y v] H. cbn. eauto. }
    destruct O as [(w & E)|(fake & _ & r1 & w1 & w & E)]; [eapply Run; eauto|]. unfold drun_two_step in E.
    destruct (droot_nelder_mead argsort np_dmin _ _ x) as [[r1' w1']|] eqn:E1; cbn [bind fst snd] in E; [|discriminate].
    destruct (drun_status _ _ _ _ _ _ Hs Hx _ _ E1) as (sim & h & Hh & Si & Hp & _). rewrite Hh, rev_app_distr in E. cbn [rev app] in E.
    destruct (droot_nelder_mead argsort np_dmin _ p _) as [[r2 w2]|] eqn:E2; cbn [bind] in E; [|discriminate]. injection E as _ _ <- _.
    eapply Run; [|exact (blow_up_simplex n sim Si)|exact E2]. cbn. intros; eauto. Qed.

  Lemma fminimized_err x e : is_dsimplex n x -> fminimized g p evals raises x (Err e) -> exists y, length y = n /\
    (raises y e \/ ~ good_position (fg_boxes g) y /\ exists rs ps c, reliable (fg_per g) (fg_boxes g) (fg_gap g) (fg_cutoff g) rs ps c /\ ffake_potential c (fg_cutoff g) y = Err e).
  Proof. intros Hx (argsort & np_dmin & func & Hs & Hm & _ & Hr & O). destruct O as [E|(fake & Hf & E)].
    - destruct (droot_err_len _ _ _ n _ _ _ Hs Hx E) as (k & y & L & H). exists y. eauto.
    - unfold drun_two_step in E. destruct (droot_nelder_mead argsort np_dmin _ _ x) as [[r1 w1]|e1] eqn:E1; cbn [bind fst snd] in E.
      + destruct (drun_status _ _ _ _ _ _ Hs Hx _ _ E1) as (sim & h & Hh & Si & Hp & _). rewrite Hh, rev_app_distr in E. cbn [rev app] in E.
        destruct (droot_nelder_mead argsort np_dmin _ p _) as [[r2 w2]|e2] eqn:E2; cbn [bind] in E; [discriminate|]. injection E as <-.
        destruct (droot_err_len _ _ _ n _ _ _ Hs (blow_up_simplex n sim Si) E2) as (k & y & L & H). exists y. eauto.
      + injection E as <-. destruct (droot_err_len _ _ _ n _ _ _ Hs Hx E1) as (k & y & L & H). exists y. split; auto.
        unfold dadd_fake in H. destruct (func k y) as [v|e2] eqn:Ef; cbn [bind] in H; [|injection H as <-; eauto]. right.
        destruct (Hf k y) as (rs & ps & c & Rl & Fk). destruct (fake k y) as [u|e2] eqn:Eu; cbn [bind] in H; [discriminate|]. injection H as ->.
        split; [|exists rs, ps, c; auto]. intros Gy. destruct (C63_fake_potential _ _ _ _ _ _ c y (fg_cutoff g) Rl Gy (proj1 (gf_cutoff g GC))) as [(Q & _)|(Q & _)]; congruence. Qed.

  Variables (rs : list dmin_result) (ps : list fpoint) (Q : list fsimplex) (P : list fpoint) (s : fstate).
  Hypothesis GS : good_fstart g s rs ps Q P.
  Hypothesis PS : fproper g Q.

  Lemma refinable_length per boxes q : refinable per boxes q -> length q = length boxes.
  Proof. unfold refinable, fwithin. destruct per; intros H; apply F2_length in H; auto. Qed.
  Lemma fproper_known k : freaches g s k -> forall x, In x (Q ++ frefinements g (fk_log k)) -> is_dsimplex n x.
  Proof. intros R x Hx. destruct PS as [PQ PSt]. rewrite Forall_forall in PQ. apply in_app_iff in Hx as [Hx|Hx]; [apply PQ; auto|].
    unfold frefinements in Hx. destruct (fg_stencil g) as [st|] eqn:E; [|destruct Hx]. apply in_flat_map in Hx as (q & Hq & Hx).
    apply in_map_iff in Hx as (y & <- & Hy). apply in_map_iff in Hy as (z & <- & Hz). specialize (PSt st eq_refl). rewrite Forall_forall in PSt. specialize (PSt z Hz).
    pose proof (refined_refinable g rs ps Q P s k GC GS R) as RP. rewrite Forall_forall in RP. specialize (RP q Hq). apply refinable_length in RP.
    apply norm_fsimplex_dsimplex. destruct PSt as (A & B & C). split; auto. split; [rewrite map_length; auto|].
    rewrite Forall_forall in *. intros v Hv. apply in_map_iff in Hv as (u & <- & Hu). rewrite map2_length; [exact RP|]. rewrite (C u Hu). exact RP. Qed.
  Lemma ftask_known k i x : freaches g s k -> nth_error (fk_tasks k) i = Some (mk_ftask x FPending) -> is_dsimplex n x.
  Proof. intros R E. apply (fproper_known k R). apply (scheduled_set g rs ps Q P s k GC GS R). right. left.
    unfold fin_flight. apply in_map_iff. exists (mk_ftask x FPending). split; auto. apply filter_In. split; auto. eapply nth_error_In; eauto. Qed.
  Lemma freaches_step k ev k' : freaches g s k -> valid_fevent (fg_boxes g) ev -> fstep g k ev = Some k' -> freaches g s k'.
  Proof. intros (evs & V & R) Hv St. exists (evs ++ [ev]). split; [apply Forall_app; auto|]. revert R. generalize (fstart s) as k0.
    induction evs as [|e evs IH]; cbn; intros k0 R; [injection R as ->; rewrite St; auto|]. inversion V; subst. destruct (fstep g k0 e); [auto|discriminate]. Qed.

  Lemma frecorded_step k ev k' : fstep g k ev = Some k' ->
    forall x r, In (x, r) (frecorded (fk_log k')) -> In (x, r) (frecorded (fk_log k)) \/ exists i, ev = FDone i r /\ nth_error (fk_tasks k) i = Some (mk_ftask x FPending).
  Proof. intros St x r Hr. destruct ev as [pick|i r0|i e| |pick]; cbn [fstep] in St.
    - left. destruct (fk_phase k); try discriminate. injection St as <-. unfold fturn in Hr. destruct (fsome_exception _ _); [exact Hr|].
      destruct (floop_condition _); [|exact Hr].
      assert (RL : forall qs s0 l0 s1 l1 e, frefine_loop g qs s0 l0 = (s1, l1, e) -> frecorded l1 = frecorded l0).
      { clear. induction qs as [|q qs IH]; intros s0 l0 s1 l1 e; cbn [frefine_loop]; destruct (has_queued _); intros H; try (injection H as <- <- <-; reflexivity).
        destruct (pop_object _) as [[pq pos]|]; [|injection H as <- <- <-; reflexivity].
        destruct (if fg_recheck g then _ else _) as [[|]|]; [| |injection H as <- <- <-; reflexivity].
        - destruct (fg_stencil g); [|injection H as <- <- <-; reflexivity]. destruct (fset_refined _ _); [|injection H as <- <- <-; reflexivity].
          apply IH in H. rewrite H. unfold frecorded. rewrite flat_map_app. cbn. apply app_nil_r.
        - apply IH in H. rewrite H. unfold frecorded. rewrite flat_map_app. cbn. apply app_nil_r. }
      assert (FL : forall f s0 t0 l0 s1 t1 l1 e, ffill f g s0 t0 l0 = (s1, t1, l1, e) -> frecorded l1 = frecorded l0).
      { clear -RL. induction f as [|f IH]; intros s0 t0 l0 s1 t1 l1 e; cbn [ffill]; destruct (_ <? _)%nat; intros H; try (injection H as <- <- <- <-; reflexivity).
        destruct (frefine_loop _ _ _ _) as [[s2 l2] [e2|]] eqn:E; apply RL in E; [injection H as <- <- <- <-; exact E|].
        destruct (has_queued _); [|injection H as <- <- <- <-; exact E]. destruct (pop_running _) as [[q sx]|]; [|injection H as <- <- <- <-; exact E].
        destruct (fcheck_simplex _ _ _ _) as [[|]|]; [| |injection H as <- <- <- <-; exact E].
        - apply IH in H. rewrite H, <- E. unfold frecorded. rewrite flat_map_app. cbn. apply app_nil_r.
        - destruct (set_finished _ _); [|injection H as <- <- <- <-; exact E]. apply IH in H. rewrite H, <- E. unfold frecorded. rewrite flat_map_app. cbn. apply app_nil_r. }
      destruct (ffill _ _ _ _ _) as [[[s1 t1] l1] e1] eqn:Ef. cbn [fk_log] in Hr. rewrite (FL _ _ _ _ _ _ _ _ Ef) in Hr. exact Hr.
    - destruct (nth_error (fk_tasks k) i) as [[sx [| |e]]|] eqn:E; try discriminate. injection St as <-.
      assert (Lg : In (x, r) (frecorded (fk_log k)) \/ (x, r) = (sx, r0)).
      { assert (PL : forall s1 l1 e, fprocess_result g (fk_state k) (fk_log k) sx r0 = (s1, l1, e) -> In (x, r) (frecorded l1) -> In (x, r) (frecorded (fk_log k)) \/ (x, r) = (sx, r0)).
        { intros s1 l1 e. unfold fprocess_result. destruct (fadd_result _ _) as [[c b]|]; [|intros H; injection H as <- <- <-; auto].
          assert (A1 : forall l, In (x, r) (frecorded (l ++ [FRecord sx r0])) -> In (x, r) (frecorded l) \/ (x, r) = (sx, r0)).
          { intros l H. unfold frecorded in H. rewrite flat_map_app in H. apply in_app_iff in H as [H|H]; auto. cbn in H. destruct H as [H|[]]; auto. }
          destruct (_ && _)%bool; [|intros H; injection H as <- <- <-; auto].
          destruct (fcheck_pos_refinement _ _ _ _) as [[|]|]; intros H; injection H as <- <- <-; auto.
          intros H. apply A1. unfold frecorded in *. rewrite flat_map_app in H. apply in_app_iff in H as [H|[]]; auto. }
        unfold ffinish_task in Hr. destruct (fprocess_result _ _ _ _ _) as [[s1 l1] [e1|]] eqn:Ep; [apply (PL _ _ _ eq_refl); exact Hr|].
        destruct (set_finished _ _); apply (PL _ _ _ eq_refl); exact Hr. }
      destruct Lg as [Lg|Lg]; auto. injection Lg as -> ->. right. exists i. auto.
    - left. destruct (nth_error (fk_tasks k) i) as [[sx [| |e']]|]; try discriminate. injection St as <-. exact Hr.
    - left. injection St as <-. exact Hr.
    - left. destruct (fk_phase k); try discriminate. destruct (fpending _); [|discriminate]. injection St as <-. exact Hr. Qed.

  Lemma fsearch_facts k : fsearch g p evals raises s k -> freaches g s k /\
    (forall x r, In (x, r) (frecorded (fk_log k)) -> is_dsimplex n x /\ fminimized g p evals raises x (Ok r) /\ fwithin 9 (fg_boxes g) (dr_pos r)) /\
    (forall e, In e (fexceptions (fk_tasks k)) -> exists x, is_dsimplex n x /\ fminimized g p evals raises x (Err e)).
  Proof. induction 1 as [|k ev k' Sr (R & Hrec & Hex) Ho St].
    - split; [exists []; auto|]. split; [intros ? ? []|intros ? []].
    - assert (V : valid_fevent (fg_boxes g) ev) by (destruct ev as [pick|i r|i e| |pick]; cbn in *; auto; apply Ho).
      split; [eapply freaches_step; eauto|]. split.
      + intros x r Hr. destruct (frecorded_step _ _ _ St x r Hr) as [H|(i & -> & E)]; auto. split; [eapply ftask_known; eauto|]. cbn in Ho. destruct Ho; auto.
      + intros e He. pose proof (proj1 (reach_kinv g rs ps Q P GC s k GS R)) as I.
        destruct (step_exceptions g rs ps Q P GC _ _ _ I V St) as (_ & B & _). destruct (B e He) as [H|(i & ->)]; auto.
        cbn in Ho, St. destruct (nth_error (fk_tasks k) i) as [[x [| |e']]|] eqn:E; try discriminate. exists x. split; [eapply ftask_known; eauto|auto]. Qed.
End Genuine.

(** ** The error of normalising *)
Open Scope R_scope.
Lemma normalize_image b x : good_box b -> good_coord b x -> exists j : Z, Rabs (val (fnormalize (fst b) (snd b) x) - (val x + IZR j * fbox_size b)) <= norm_error b.
Proof. intros Gb (Fx & Bx). pose proof Gb as (Fl & _ & _ & Bl & _). destruct (size_ok b Gb) as (Fs & Ls & Us). pose proof (s_pos b Gb) as Ps. pose proof (tiny b Gb) as T. unfold norm_error.
  change (fbox_size b) with (val (fsize (fst b) (snd b))) in *. set (S := fsize (fst b) (snd b)) in *. set (s := val S) in *.
  assert (B : Rabs (val x - val (fst b)) <= pw 11 * s) by (change 11%Z with (10 + 1)%Z; rewrite pow_succ; pose proof (pw_pos 10); nra).
  destruct (diff_val b Gb x (fst b) Fx Fl B) as (Fa & Ea). fold S in Ea. fold s in Ea. unfold fnormalize. fold S. set (a := fsub x (fst b)) in *.
  destruct (np_mod_val a S Fa Fs Ps) as (Fm & Vm & Rm & _). fold s in Vm, Rm.
  assert (C : exists j e, val (np_mod a S) = val a + IZR j * s + e /\ Rabs e <= pw (-53) * s + pw (-1075)).
  { set (q := Ztrunc (val a / s)) in *. destruct (fmod_range (val a) s Ps) as (R1 & R2). cbv zeta in R1, R2. fold q in R1, R2. rewrite Vm.
    destruct (Rlt_bool_spec (val a - IZR q * s) 0) as [Hm|Hm].
    - exists (1 - q)%Z, (rnd (val a - IZR q * s + s) - (val a - IZR q * s + s)). split; [rewrite minus_IZR; ring|]. eapply Rle_trans; [apply rnd_rel|]. apply Rplus_le_compat_r. apply Rmult_le_compat_l; [left; apply pw_pos|].
      assert (- s < val a - IZR q * s). { destruct (Rle_or_lt 0 (val a)); [specialize (R1 ltac:(lra)); lra|specialize (R2 ltac:(lra)); lra]. } rewrite Rabs_pos_eq by lra. lra.
    - exists (- q)%Z, 0. split; [rewrite opp_IZR; ring|]. rewrite Rabs_R0. pose proof (pw_pos (-53)). pose proof (pw_pos (-1075)). nra. }
  destruct C as (j & e & Em & Be). set (m := np_mod a S) in *.
  assert (Bm : Rabs (val m + val (fst b)) <= s + Rabs (val (fst b))) by (eapply Rle_trans; [apply Rabs_triang|]; rewrite (Rabs_pos_eq (val m)) by lra; lra).
  assert (P401 : pw 402 = 2 * pw 401) by (change 402%Z with (401 + 1)%Z; apply pow_succ). assert (P400 : pw 400 <= pw 401) by (apply pw_le; lia).
  destruct (fadd_val m (fst b) 402 ltac:(lia) Fm Fl ltac:(lra)) as (Fr & Vr). rewrite Vr. pose proof (rnd_rel (val m + val (fst b))) as Er.
  exists j.
  assert (E40 : pw (-40) = 2 * pw (-41)) by (change (-40)%Z with (-41 + 1)%Z; apply pow_succ). assert (E53 : pw (-53) <= / 8 * pw (-41)).
  { change (/ 8) with (pw (-3)). rewrite pw_mul. apply pw_le. lia. } assert (E60 : pw (-60) <= / 8 * pw (-41)) by (change (/ 8) with (pw (-3)); rewrite pw_mul; apply pw_le; lia).
  assert (X53 : pw (-53) * s <= / 8 * pw (-41) * s) by (apply Rmult_le_compat_r; lra). assert (X60 : pw (-60) * s <= / 8 * pw (-41) * s) by (apply Rmult_le_compat_r; lra).
  assert (Y53 : pw (-53) * Rabs (val m + val (fst b)) <= pw (-53) * (s + Rabs (val (fst b)))) by (apply Rmult_le_compat_l; [left; apply pw_pos|lra]).
  assert (E52 : pw (-52) = 2 * pw (-53)) by (change (-52)%Z with (-53 + 1)%Z; apply pow_succ). pose proof (Rabs_pos (val (fst b))) as PA. pose proof (pw_pos (-53)) as P53. assert (0 <= pw (-53) * Rabs (val (fst b))) by nra.
  rewrite E40, E52. pose proof (pw_pos (-41)) as P41. assert (Z41 : 0 < pw (-41) * s) by (apply Rmult_lt_0_compat; lra).
  rewrite abs_le in Ea, Be, Er. rewrite abs_le. rewrite Rmult_plus_distr_l in Y53. rewrite Em in Er at 4 5. rewrite Em in *. lra. Qed.
Lemma norm_error_pos b : good_box b -> 0 <= norm_error b.
Proof. intros Gb. pose proof (s_pos b Gb) as Ps. unfold norm_error. change (fbox_size b) with (val (fsize (fst b) (snd b))). pose proof (pw_pos (-40)). pose proof (pw_pos (-52)). pose proof (Rabs_pos (val (fst b))). nra. Qed.
Lemma stored_image per boxes p : Forall good_box boxes -> good_position boxes p -> image_of boxes p (map2 (fnormalize1 per) boxes p).
Proof. intros Gb Gp. pose proof (F2_length _ _ _ Gp) as L. split; [auto|]. split; [rewrite map2_length; auto|].
  intros i b x y Eb Ex Ey. revert p Gp L i Eb Ex Ey. induction boxes as [|b0 boxes IH]; intros [|x0 p] Gp L i Eb Ex Ey; try discriminate; try (destruct i; discriminate).
  inversion Gp as [|? ? ? ? G1 G2]; subst. destruct i as [|i]; cbn [nth_error map2] in *.
  - injection Eb as ->. injection Ex as ->. injection Ey as <-. pose proof (Forall_inv Gb) as Gb0. destruct per; unfold fnormalize1.
    + apply normalize_image; auto.
    + exists 0%Z. rewrite Rmult_0_l, Rplus_0_r, Rminus_diag_eq, Rabs_R0 by reflexivity. apply norm_error_pos; auto.
  - apply (IH (Forall_inv_tail Gb) p G2 ltac:(cbn in L; lia) i); auto. Qed.
Lemma image_shift boxes : Forall good_box boxes -> forall p q, image_of boxes p q -> exists js, length js = length boxes /\ sum_changes (map val q) (shifted boxes (map val p) js) <= total_norm_error boxes.
Proof. induction boxes as [|b boxes IH]; intros Gb [|x p] [|y q] (L1 & L2 & H); try discriminate; [exists []; split; [reflexivity|cbn; unfold total_norm_error; cbn; lra]|].
  destruct (IH (Forall_inv_tail Gb) p q) as (js & Lj & Hj). { split; [cbn in L1; lia|]. split; [cbn in L2; lia|]. intros i b' x' y' A B C. exact (H (Datatypes.S i) b' x' y' A B C). }
  destruct (H 0%nat b x y eq_refl eq_refl eq_refl) as (j & Hj0). exists (j :: js). split; [cbn; auto|]. cbn [map shifted sum_changes]. unfold total_norm_error in *. cbn [map fold_right]. lra. Qed.
Lemma shifted_length boxes : forall x js, length x = length boxes -> length js = length boxes -> length (shifted boxes x js) = length boxes.
Proof. induction boxes as [|b boxes IH]; intros [|a x] [|j js] A B; try discriminate; auto. cbn in *. f_equal. apply IH; lia. Qed.
Lemma gap_moved boxes F lip p q : Forall good_box boxes -> image_of boxes p q -> box_periodic boxes F -> lipschitz (length boxes) lip F -> 0 <= lip ->
  Rabs (F (map val q) - F (map val p)) <= lip * total_norm_error boxes.
Proof. intros Gb Im Pe Li Lp. destruct (image_shift boxes Gb p q Im) as (js & Lj & Hj). destruct Im as (L1 & L2 & _).
  rewrite <- (Pe (map val p) js) by (rewrite ?map_length; auto). eapply Rle_trans; [apply Li; [rewrite map_length; auto|apply shifted_length; rewrite ?map_length; auto]|].
  apply Rmult_le_compat_l; auto. Qed.
