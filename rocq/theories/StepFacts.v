(** The moves of the model are Nelder-Mead steps (C70). *)
From Verif Require Import Base BaseFacts CoordSys SpecGeom CoordSysFacts Values NelderMead SpecMin NelderMeadFacts AverageFacts NelderMeadProps NelderMeadAffine SpecStep.
Open Scope list_scope.
Open Scope Qc_scope.

(** ** The shape of a simplex with values *)
Lemma simplex_shape {A B} n (sim : list A) (fsim : list B) : (1 <= n)%nat -> length sim = S n -> length fsim = S n ->
  exists x0 xs xw f0 fs fw, sim = (x0 :: xs) ++ [xw] /\ fsim = (f0 :: fs) ++ [fw] /\ length xs = length fs /\ S (length xs) = n.
Proof. intros N L Lf. destruct (exists_last (l := sim)) as (a & xw & ->); [destruct sim; [discriminate|congruence]|]. destruct (exists_last (l := fsim)) as (b & fw & ->); [destruct fsim; [discriminate|congruence]|].
  rewrite app_length in L, Lf. cbn in L, Lf. destruct a as [|x0 xs], b as [|f0 fs]; cbn in L, Lf; try lia. exists x0, xs, xw, f0, fs, fw. repeat split; auto; lia. Qed.
Lemma hd_app_cons {A} (x : A) l m d : hd d ((x :: l) ++ m) = x.
Proof. reflexivity. Qed.
Lemma map_fst_combine {A B} (l : list A) (m : list B) : length l = length m -> map fst (combine l m) = l.
Proof. revert m. induction l as [|x l IH]; intros [|y m] H; cbn in *; try discriminate; auto. f_equal. auto. Qed.
Lemma map_snd_combine {A B} (l : list A) (m : list B) : length l = length m -> map snd (combine l m) = m.
Proof. revert m. induction l as [|x l IH]; intros [|y m] H; cbn in *; try discriminate; auto. f_equal. auto. Qed.
Lemma combine_map_fst_snd {A B} (l : list (A * B)) : combine (map fst l) (map snd l) = l.
Proof. induction l as [|[a b] l IH]; cbn; congruence. Qed.

Lemma last_shift {A} (l : list A) x d : last (x :: l) d = last l x.
Proof. revert x d. induction l as [|y l IH]; intros x d; auto. change (last (y :: l) d = last (y :: l) x). rewrite (IH y d), (IH y x). auto. Qed.

(** ** Candidates *)
Section Candidates.
  Variables (n : nat) (others : list point) (worst : point).
  Hypothesis N : (1 <= n)%nat.
  Hypothesis L : length others = n.
  Hypothesis F : Forall (fun x => length x = n) (others ++ [worst]).
  Lemma cand_simplex : is_simplex n (others ++ [worst]).
  Proof. split; auto. split; auto. rewrite app_length, L. cbn. lia. Qed.
  Lemma cand_on_line k : on_line k others worst (vsub (vscale (1 + factor k) (centroid n others)) (vscale (factor k) worst)).
  Proof. pose proof cand_simplex as S. assert (E : vsub (vscale (1 + factor k) (centroid n others)) (vscale (factor k) worst) = proposal n (others ++ [worst]) (factor k)) by (unfold proposal; rewrite removelast_last, last_last; auto).
    rewrite E. assert (Lw : length worst = n) by (apply Forall_app in F as (_ & F'); inversion F'; auto). assert (Fo : Forall (fun x => length x = n) others) by (apply Forall_app in F; apply F).
    split; [rewrite proposal_length, Lw; auto|]. intros j Hj. rewrite proposal_length in Hj by auto. rewrite nth_proposal, removelast_last, last_last, L by auto.
    assert (NZ : qc (Z.of_nat n) <> 0) by (rewrite <- qc_0; intros H; apply qc_inj in H; lia). field. exact NZ. Qed.
  Lemma inside_form : vadd (vscale (1 - psi) (centroid n others)) (vscale psi worst) = vsub (vscale (1 + factor Inside) (centroid n others)) (vscale (factor Inside) worst).
  Proof. apply vadd_vsub_scale. rewrite centroid_length by (apply Forall_app in F; apply F). apply Forall_app in F as (_ & F'). inversion F'; auto. Qed.
End Candidates.
Lemma shrink_halfway n x0 x : length x0 = n -> length x = n -> halfway x0 x (vadd x0 (vscale sigma (vsub x x0))).
Proof. intros L0 L. assert (Lv : length (vadd x0 (vscale sigma (vsub x x0))) = n) by (apply vlen_shrink; auto). split; [congruence|]. rewrite Lv. intros j Hj. unfold vadd, vsub.
  rewrite (nth_map2 _ _ _ j 0 0 0); unfold vscale; rewrite ?map_length, ?map2_length; try lia; try congruence. rewrite (nth_map_lt _ _ j 0 0) by (rewrite map2_length; congruence || lia).
  rewrite (nth_map2 _ _ _ j 0 0 0); try congruence; try lia. unfold sigma. assert (H : half + half = 1) by (apply Qc_is_canon; reflexivity). set (a := nth j x0 0). set (b := nth j x 0). replace (a + half * (b - a) + (a + half * (b - a))) with (a + a + (half + half) * (b - a)) by ring. rewrite H. ring. Qed.

(** ** One move *)
Section Move.
  Variable func : nat -> point -> res fval.
  Notation lt := (fun x y : fval => flt x y = true).
  Notation le := (fun x y : fval => fle x y = true).
  Notation step := (nm_step lt le on_line halfway).
  Lemma not_true b : b = false -> ~ b = true.
  Proof. congruence. Qed.

  Lemma nm_move_step n sim fsim w sim' fsim' w' : is_simplex n sim -> length fsim = S n -> nm_move func n sim fsim w = Ok (sim', fsim', w') ->
    exists e, extends func w w' e /\ step (combine sim fsim) e (combine sim' fsim').
  Proof. intros (N & L & F) Lf E. destruct (simplex_shape n sim fsim N L Lf) as (x0 & xs & xw & f0 & fs & fw & -> & -> & Lx & Ln).
    set (others := x0 :: xs) in *. set (fothers := f0 :: fs) in *. assert (Lo : length others = n) by (unfold others; cbn; lia). assert (Lfo : length others = length fothers) by (unfold others, fothers; cbn; lia).
    set (os := combine xs fs). assert (Hc : combine (others ++ [xw]) (fothers ++ [fw]) = ((x0, f0) :: os) ++ [(xw, fw)]) by (rewrite combine_app by auto; reflexivity).
    assert (Hm : map fst ((x0, f0) :: os) = others) by (apply (map_fst_combine others fothers); auto).
    assert (Hs : forall y v, combine (set_last (others ++ [xw]) y) (set_last (fothers ++ [fw]) v) = ((x0, f0) :: os) ++ [(y, v)]) by (intros y v; unfold set_last; rewrite !removelast_last, combine_app by auto; reflexivity).
    unfold nm_move in E. rewrite removelast_last, last_last, last_last in E. replace (removelast (fothers ++ [fw])) with fothers in E by (symmetry; apply removelast_last). rewrite Hc.
    assert (H0 : hd NaN (fothers ++ [fw]) = f0) by reflexivity. rewrite H0 in E.
    destruct (exists_last (l := (x0, f0) :: os)) as (front & second & Hl); [discriminate|].
    assert (H2 : last fothers NaN = snd second). { rewrite <- (map_snd_combine others fothers Lfo). change (combine others fothers) with ((x0, f0) :: os). rewrite Hl, map_app. cbn [map]. apply last_last. } rewrite H2 in E.
    pose proof (cand_on_line n others xw N Lo F) as On. rewrite (inside_form n others xw F) in E.
    set (xr := vsub (vscale (1 + rho) _) _) in E. assert (Hr : on_line Reflection (map fst ((x0, f0) :: os)) xw xr) by (rewrite Hm; exact (On Reflection)).
    destruct (call func w xr) as [[w1 fxr]|e] eqn:Cr; cbn [bind] in E; [|discriminate]. apply call_spec in Cr as [Cr _].
    destruct (flt fxr f0) eqn:B1.
    { set (xe := vsub (vscale (1 + rho * chi) _) _) in E. assert (He : on_line Expansion (map fst ((x0, f0) :: os)) xw xe) by (rewrite Hm; exact (On Expansion)).
      destruct (call func w1 xe) as [[w2 fxe]|e] eqn:Ce; cbn [bind] in E; [|discriminate]. apply call_spec in Ce as [Ce _]. pose proof (extends_trans _ _ _ _ _ _ Cr Ce) as X. cbn [app] in X.
      destruct (flt fxe fxr) eqn:B2; injection E as <- <- <-; rewrite Hs; (eexists; split; [exact X|]).
      - apply step_expand; auto.
      - apply step_expand_rejected; auto. apply not_true. auto. }
    destruct (flt fxr (snd second)) eqn:B2.
    { injection E as <- <- <-. rewrite Hs. eexists; split; [exact Cr|]. eapply step_reflect; eauto. apply not_true. auto. }
    assert (Fin : forall y v w2, extends func w1 w2 [(y, v)] -> (flt fxr fw = true /\ on_line Outside (map fst ((x0, f0) :: os)) xw y /\ ~ fle v fxr = true \/ ~ flt fxr fw = true /\ on_line Inside (map fst ((x0, f0) :: os)) xw y /\ ~ flt v fw = true) ->
      (let! r := shrink_loop func (hd [] (others ++ [xw])) w2 (tl (others ++ [xw])) in let '(w, ys, vs) := r in Ok (hd [] (others ++ [xw]) :: ys, f0 :: vs, w)) = Ok (sim', fsim', w') ->
      exists e, extends func w w' e /\ step (((x0, f0) :: os) ++ [(xw, fw)]) e (combine sim' fsim')).
    { intros y v w2 X1 Hy E2. pose proof (extends_trans _ _ _ _ _ _ Cr X1) as X. cbn [app] in X. change (hd [] (others ++ [xw])) with x0 in E2. change (tl (others ++ [xw])) with (xs ++ [xw]) in E2.
      destruct (shrink_loop func x0 w2 (xs ++ [xw])) as [[[w3 ys] vs]|e] eqn:Cs; cbn [bind] in E2; [|discriminate]. injection E2 as <- <- <-. apply shrink_spec in Cs as (Ys & Lv & Xs).
      eexists; split; [exact (extends_trans _ _ _ _ _ _ X Xs)|]. cbn [app combine]. eapply step_shrink; eauto; try (apply not_true; auto).
      assert (Ly : length ys = length vs) by (subst ys; rewrite map_length; auto). assert (F2 : Forall2 (fun x y => halfway x0 x y) (xs ++ [xw]) ys).
      { subst ys. clear - F. unfold others in F. cbn in F. inversion F as [|? ? L0 F']; subst. clear F. induction (xs ++ [xw]) as [|x l IH]; cbn; constructor; inversion F'; subst; auto. apply (shrink_halfway (length x0)); auto. }
      assert (Hc2 : os ++ [(xw, fw)] = combine (xs ++ [xw]) (fs ++ [fw])) by (unfold os; rewrite combine_app by auto; reflexivity). rewrite Hc2. cbn [fst].
      assert (L2 : length (xs ++ [xw]) = length (fs ++ [fw])) by (rewrite !app_length; cbn; lia). clear - F2 Ly L2. revert vs Ly L2. generalize (fs ++ [fw]). induction F2 as [|x y l m H F2 IH]; intros [|f g] [|v vs] Ly L2; cbn in *; try discriminate; constructor; auto. }
    destruct (flt fxr fw) eqn:B3.
    - set (xc := vsub (vscale (1 + psi * rho) _) _) in E. assert (Hxc : on_line Outside (map fst ((x0, f0) :: os)) xw xc) by (rewrite Hm; exact (On Outside)).
      destruct (call func w1 xc) as [[w2 fxc]|e] eqn:Cc; cbn [bind] in E; [|discriminate]. apply call_spec in Cc as [Cc _].
      destruct (fle fxc fxr) eqn:B4; cbn [bind] in E.
      + injection E as <- <- <-. rewrite Hs. eexists; split; [exact (extends_trans _ _ _ _ _ _ Cr Cc)|]. cbn [app]. eapply step_outside; eauto; apply not_true; auto.
      + apply (Fin xc fxc w2); auto. left. repeat split; auto; try apply Hxc. congruence.
    - set (xc := vsub (vscale (1 + factor Inside) _) _) in E. assert (Hxc : on_line Inside (map fst ((x0, f0) :: os)) xw xc) by (rewrite Hm; exact (On Inside)).
      destruct (call func w1 xc) as [[w2 fxc]|e] eqn:Cc; cbn [bind] in E; [|discriminate]. apply call_spec in Cc as [Cc _].
      destruct (flt fxc fw) eqn:B4; cbn [bind] in E.
      + injection E as <- <- <-. rewrite Hs. eexists; split; [exact (extends_trans _ _ _ _ _ _ Cr Cc)|]. cbn [app]. eapply step_inside; eauto; apply not_true; auto.
      + apply (Fin xc fxc w2); auto. right. repeat split; auto; try apply Hxc; congruence. Qed.
End Move.

(** ** The whole run *)
Section Run.
  Variable argsort : list fval -> list nat.
  Hypothesis Hsort : argsort_ok argsort.
  Variable func : nat -> point -> res fval.
  Notation lt := (fun x y : fval => flt x y = true).
  Notation le := (fun x y : fval => fle x y = true).
  Notation ord := (fun x y : fval => nle x y = true).
  Notation step := (nm_step lt le on_line halfway).

  Lemma sorted_combine (sim : list point) (fsim : list fval) : length sim = length fsim -> Sorted (fun x y => nle x y = true) fsim -> Sorted (fun x y : point * fval => nle (snd x) (snd y) = true) (combine sim fsim).
  Proof. intros L S. revert sim L. induction S as [|f fs S IH H]; intros [|x xs] L; cbn in *; try discriminate; constructor; auto. destruct xs, fs; cbn in *; try discriminate; constructor. inversion H; auto. Qed.

  Lemma loop_chain fuel : forall n maxfun maxiter p s s', nm_inv func (p_keep p) n (fun _ => True) s ->
    nm_loop argsort func fuel n maxfun maxiter p s = Ok s' ->
    exists es bs, nm_chain lt le ord on_line halfway (continues p maxfun maxiter) (combine (s_sim s) (s_fsim s)) (w_calls (s_world s)) (s_iter s) es bs /\
      (if p_keep p then s_hist s' = s_hist s ++ map (map fst) bs /\ s_fhist s' = s_fhist s ++ map (map snd) bs else True) /\
      combine (s_sim s') (s_fsim s') = last bs (combine (s_sim s) (s_fsim s)) /\
      w_log (s_world s') = w_log (s_world s) ++ concat es /\ s_iter s' = (s_iter s + length es)%nat.
  Proof. induction fuel as [|fuel IH]; intros n maxfun maxiter p s s' I E.
    - cbn [nm_loop] in E. destruct ((_ <? _)%nat && _)%bool eqn:B; [discriminate|]. injection E as <-. exists [], []. split; [constructor|]. cbn. rewrite !app_nil_r. split; [destruct (p_keep p); auto|]. repeat split; auto.
    - cbn [nm_loop] in E.
      assert (Done : s = s' -> exists es bs, nm_chain lt le ord on_line halfway (continues p maxfun maxiter) (combine (s_sim s) (s_fsim s)) (w_calls (s_world s)) (s_iter s) es bs /\
        (if p_keep p then s_hist s' = s_hist s ++ map (map fst) bs /\ s_fhist s' = s_fhist s ++ map (map snd) bs else True) /\ combine (s_sim s') (s_fsim s') = last bs (combine (s_sim s) (s_fsim s)) /\
        w_log (s_world s') = w_log (s_world s) ++ concat es /\ s_iter s' = (s_iter s + length es)%nat).
      { intros <-. exists [], []. split; [constructor|]. cbn. rewrite !app_nil_r. split; [destruct (p_keep p); auto|]. repeat split; auto. }
      destruct ((_ <? _)%nat && _)%bool eqn:B; [|apply Done; congruence]. apply andb_true_iff in B as [B1 B2]. apply Nat.ltb_lt in B1, B2.
      destruct (fprime_exceeded _ _ _) as [b|] eqn:Ef; cbn [bind] in E; [|discriminate]. destruct b; [apply Done; congruence|].
      destruct (converged p _ _) as [b|] eqn:Ec; cbn [bind] in E; [|discriminate]. destruct b; [apply Done; congruence|].
      destruct (nm_move _ _ _ _ _) as [[[sim1 fsim1] w1]|] eqn:Em; cbn [bind] in E; [|discriminate].
      destruct (sort_simplex argsort sim1 fsim1) as [sim2 fsim2] eqn:Es.
      destruct (inv_step argsort Hsort func n (p_keep p) _ s sim1 fsim1 w1 sim2 fsim2 (preserved_True n) I Em Es) as (I2 & _).
      assert (Is : is_simplex n (s_sim s) /\ length (s_fsim s) = S n) by (split; apply I). destruct Is as (Is & Lf). assert (Ls : length (s_sim s) = S n) by apply Is.
      destruct (nm_move_step func n _ _ _ _ _ _ Is Lf Em) as (e & (X1 & X2 & X3) & St).
      destruct (nm_move_spec func n (s_sim s) (s_fsim s) (s_world s) sim1 fsim1 w1) as (ext & _ & _ & O); auto; [apply I|].
      assert (L1 : length sim1 = length fsim1).
      { destruct O as [(a & v & _ & -> & -> & _)|(ys & vs & -> & -> & _ & Lv & _)]; [rewrite !set_last_length; try congruence; intros H; rewrite H in *; discriminate|cbn; lia]. }
      destruct (sort_spec argsort Hsort sim1 fsim1 sim2 fsim2 L1 Es) as (S1 & S2 & S3 & S4 & S5).
      destruct (IH _ _ _ _ _ _ I2 E) as (es & bs & Ch & Hh & Hl & Hw & Hi). cbn [s_sim s_fsim s_world s_iter s_hist s_fhist] in *.
      assert (L2 : length sim2 = length fsim2) by (rewrite (Permutation_length S1), (Permutation_length S2); auto).
      exists (e :: es), (combine sim2 fsim2 :: bs). split; [|split; [|split; [|split]]].
      + econstructor; [|exact St| |apply sorted_combine; auto|rewrite <- X2; exact Ch].
        * split; auto. split; auto. rewrite map_fst_combine, map_snd_combine by congruence. split.
          { exists (hd NaN (s_fsim s)). split; auto. destruct (s_fsim s); [discriminate|reflexivity]. }
          intros T. apply (converged_spec n p _ _ Is Lf) in T. congruence.
        * apply Permutation_sym. exact S3.
      + destruct (p_keep p); auto. destruct Hh as (-> & ->). unfold extend_history. cbn [map]. rewrite map_fst_combine, map_snd_combine, <- !app_assoc by auto. auto.
      + rewrite Hl. symmetry. apply last_shift.
      + rewrite Hw, X1. cbn [concat]. rewrite app_assoc. auto.
      + rewrite Hi. cbn. lia. Qed.

  Lemma root_chain n p initial r w : is_simplex n initial -> root_nelder_mead argsort func p initial = Ok (r, w) ->
    exists f0 start es bs, length f0 = length initial /\ Permutation (combine initial f0) start /\ Sorted (fun x y : point * fval => nle (snd x) (snd y) = true) start /\
      nm_chain lt le ord on_line halfway (continues p (limit (p_maxfev p) n) (limit (p_maxiter p) n)) start (S n) 1 es bs /\
      w_log w = combine initial f0 ++ concat es /\ r_num_iter r = S (length es) /\
      (exists best rest, last bs start = best :: rest /\ r_pos r = fst best) /\
      (p_keep p = true -> r_simplex_history r = map (map fst) (start :: bs) /\ r_fun_history r = Some (map (map snd) (start :: bs))).
  Proof. intros Hi E. unfold root_nelder_mead in E. destruct initial as [|x0 xs] eqn:Ein; [discriminate|]. rewrite <- Ein in *.
    assert (L0 : length x0 = n). { destruct Hi as (_ & _ & F). rewrite Ein in F. inversion F; auto. }
    rewrite L0 in E. rewrite (proj2 (well_shaped_spec n initial (proj1 Hi)) Hi) in E. cbn [negb] in E.
    destruct (call_all func _ initial) as [[w0 f0]|] eqn:C; cbn [bind] in E; [|discriminate].
    destruct (sort_simplex argsort initial f0) as [sim fsim] eqn:Es.
    destruct (init_inv argsort Hsort func n _ initial w0 f0 sim fsim (p_keep p) (preserved_True n) Hi I C Es) as (Iv & W & LW & LF).
    destruct (nm_loop _ _ _ _ _ _ _ _) as [s|] eqn:El; cbn [bind] in E; [|discriminate].
    destruct (nm_status _ _ _ _ _) as [st|] eqn:St; cbn [bind] in E; [|discriminate]. injection E as <- <-.
    destruct (loop_spec argsort Hsort func _ _ _ _ _ _ _ _ (preserved_True n) Iv El) as (I2 & _).
    destruct (loop_chain _ _ _ _ _ _ _ Iv El) as (es & bs & Ch & Hh & Hl & Hw & Hit). cbn [s_sim s_fsim s_world s_iter s_hist s_fhist] in *.
    destruct (sort_spec argsort Hsort initial f0 sim fsim (eq_sym LF) Es) as (S1 & S2 & S3 & S4 & S5).
    exists f0, (combine sim fsim), es, bs. split; auto. split; [apply Permutation_sym; auto|]. split; [apply sorted_combine; auto|]. split; [rewrite <- W; exact Ch|]. split; [rewrite Hw, LW; auto|]. split; [cbn; rewrite Hit; auto|]. split.
    - cbn [r_pos]. rewrite <- Hl. assert (Ls : length (s_sim s) = S n) by apply I2. assert (Lfs : length (s_fsim s) = S n) by apply I2. destruct (s_sim s) as [|a l]; [discriminate|]. destruct (s_fsim s) as [|b m]; [discriminate|]. exists (a, b), (combine l m). auto.
    - intros K. cbn [r_simplex_history r_fun_history]. rewrite K in *. destruct Hh as (-> & ->). cbn [map app]. rewrite map_fst_combine, map_snd_combine by auto. auto. Qed.
End Run.
