(** The moves in double precision are Nelder-Mead steps up to rounding (C70). *)
From Coq Require Import ZArith Reals Psatz List.
From Flocq Require Import Core BinarySingleNaN.
From Verif Require Import Base BaseFacts CoordSys AverageFacts NelderMead NelderMeadFacts SpecStep StepFacts Float FloatFacts FloatVector FloatVectorFacts FloatMin SpecFloatMin FloatMinFacts FloatMinProps FloatCell FloatCellNum FloatDistNum SpecFloatStep FloatStepNum.
From Coq Require Import Lra.
Import ListNotations.
Open Scope list_scope.
Open Scope R_scope.
Notation zero := (B754_zero false : double).

Lemma nth_vadd_fold j d ps : forall p, length p = d -> Forall (fun x => length x = d) ps -> (j < d)%nat ->
  nth j (fold_left dvadd ps p) zero = fold_left fadd (map (fun x => nth j x zero) ps) (nth j p zero) /\ length (fold_left dvadd ps p) = d.
Proof. induction ps as [|q ps IH]; intros p Lp F Hj; cbn [fold_left map]; auto. inversion F as [|? ? Lq F']; subst.
  destruct (IH (dvadd p q)) as (A & B); auto; [unfold dvadd; rewrite map2_length; auto|]. rewrite A. split; [|exact B]. f_equal. unfold dvadd. apply nth_map2; congruence. Qed.
Lemma nth_dcentroid j d n p ps : length p = d -> Forall (fun x => length x = d) ps -> (j < d)%nat ->
  nth j (dcentroid n (p :: ps)) zero = fdiv (fold_left fadd (map (fun x => nth j x zero) ps) (nth j p zero)) (of_int (Z.of_nat n)) /\ length (dcentroid n (p :: ps)) = d.
Proof. intros Lp F Hj. unfold dcentroid. destruct (nth_vadd_fold j d ps p Lp F Hj) as (A & B). split; [|rewrite map_length; auto]. rewrite (nth_map_lt _ _ j zero zero) by lia. rewrite A. auto. Qed.
Lemma nth_dscale j a v : (j < length v)%nat -> nth j (dvscale a v) zero = fmul a (nth j v zero).
Proof. intros H. unfold dvscale. apply nth_map_lt. auto. Qed.

Lemma const_vals : (fin fone /\ val fone = 1) /\ (fin dtwo /\ val dtwo = 2) /\ (fin dthree /\ val dthree = 3) /\ (fin dhalf /\ val dhalf = / 2) /\ (fin dthree_halves /\ val dthree_halves = 3 / 2).
Proof. split; [apply fone_val|]. split; [apply of_int_val; lia|]. split; [apply of_int_val; lia|]. unfold dhalf, dthree_halves. destruct (of_dyadic_val 1 (-1) ltac:(lia) ltac:(lia)) as (F1 & V1). destruct (of_dyadic_val 3 (-1) ltac:(lia) ltac:(lia)) as (F2 & V2).
  change (pw (-1)) with (/ 2) in *. split; split; auto; lra. Qed.

Section Candidates.
  Variables (d : nat) (others : list fpoint) (worst : fpoint).
  Hypothesis Ne : others <> [].
  Hypothesis F : Forall (fun x => length x = d) (others ++ [worst]).
  Let n := length others.
  Let xbar := dcentroid n others.
  Lemma others_len : Forall (fun x => length x = d) others.
  Proof. apply Forall_app in F. apply F. Qed.
  Lemma worst_len : length worst = d.
  Proof. apply Forall_app in F as (_ & F'). inversion F'; auto. Qed.
  Lemma xbar_len : length xbar = d.
  Proof. pose proof others_len as Fo. unfold xbar. destruct others as [|p ps]; [congruence|]. inversion Fo as [|? ? Lp Fp]; subst. unfold dcentroid. rewrite map_length.
    clear - Fp. revert p Fp. induction ps as [|q ps IH]; intros p Fp; cbn [fold_left]; auto. inversion Fp as [|? ? Lq F']; subst. rewrite IH; unfold dvadd; rewrite map2_length; auto. Qed.
  Lemma coord_ok M p j : bounded_by M [p] -> okc M (nth j p zero).
  Proof. intros (HM & H). inversion H as [|? ? Hp _]; subst. destruct (Nat.lt_ge_cases j (length p)) as [L|L].
    - rewrite Forall_forall in Hp. apply Hp. apply nth_In. auto.
    - rewrite nth_overflow by auto. split; [reflexivity|]. cbn. rewrite Rabs_R0. pose proof (pw_pos (-400)). lra. Qed.
  Lemma xbar_coord M j : (n <= 64)%nat -> bounded_by M others -> (j < d)%nat ->
    let C := fold_right Rplus 0 (map (rcoord j) others) / INR n in
    fin (nth j xbar zero) /\ Rabs (val (nth j xbar zero) - C) <= 73 * (pw (-53) * M) /\ Rabs C <= M.
  Proof. intros L (HM & B) Hj C. pose proof others_len as Fo. unfold C, xbar, n in *. destruct others as [|p ps]; [congruence|]. inversion Fo as [|? ? Lp Fp]; subst. inversion B as [|? ? Bp Bs]; subst.
    destruct (nth_dcentroid j (length p) (length (p :: ps)) p ps eq_refl Fp Hj) as (-> & _).
    pose proof (centroid_coord M HM (map (fun x => nth j x zero) ps) (nth j p zero)) as K. rewrite map_length in K. cbn [length] in *.
    destruct K as (A1 & A2 & A3); auto.
    - apply (coord_ok M p j). split; auto.
    - clear - Bs HM. induction Bs as [|q ps Bq Bs IH]; cbn; constructor; auto. apply (coord_ok M q j). split; auto.
    - cbn [map fold_right]. rewrite map_map in A2, A3. unfold rsum in *. change (rcoord j p) with (val (nth j p zero)). split; auto. Qed.
  Lemma sub_form A B a b k : fin A -> fin B -> val A = a -> val B = b -> 0 <= a <= 3 -> 0 <= b <= 2 -> a = 1 + rfactor k -> b = rfactor k ->
    fon_line k others worst (dvsub (dvscale A xbar) (dvscale B worst)).
  Proof. intros FA FB VA VB Ha Hb Ea Eb. rewrite <- VA in Ha, Ea. rewrite <- VB in Hb, Eb. clear a b VA VB. pose proof xbar_len as Lx. pose proof worst_len as Lw. assert (Ly : length (dvsub (dvscale A xbar) (dvscale B worst)) = d) by (unfold dvsub, dvscale; rewrite map2_length; rewrite !map_length; congruence).
    split; [congruence|]. rewrite Ly. intros L M (HM & Bd) j Hj. pose proof (Forall_inv Bd) as Bw. pose proof (Forall_inv_tail Bd) as Bo. fold n.
    assert (En : nth j (dvsub (dvscale (A) xbar) (dvscale B worst)) zero = fsub (fmul A (nth j xbar zero)) (fmul B (nth j worst zero))).
    { unfold dvsub. rewrite (nth_map2 _ _ _ j zero zero zero); unfold dvscale; rewrite ?map_length; try congruence. change (map (fmul A) xbar) with (dvscale A xbar). change (map (fmul B) worst) with (dvscale B worst). rewrite !nth_dscale by congruence. auto. }
    unfold rcoord at 1. rewrite En. destruct (xbar_coord M j L (conj HM Bo) Hj) as (F1 & E1 & B1).
    destruct (cand_coord M HM A B (val A) (val B) (nth j xbar zero) (fold_right Rplus 0 (map (rcoord j) others) / INR n) (nth j worst zero) FA FB eq_refl eq_refl Ha Hb F1 E1 B1 (coord_ok M worst j (conj HM (Forall_cons _ Bw (Forall_nil _))))) as ((G1 & G2) & _).
    split; auto. cbv zeta. set (C := _ / INR n) in *. unfold rcoord. rewrite ?En. replace (pw (-45) * M) with (256 * (pw (-53) * M)) by (change (-45)%Z with (8 + -53)%Z; rewrite <- pw_mul; change (pw 8) with 256; ring).
    replace (C + rfactor k * (C - val (nth j worst zero))) with (val A * C - val B * val (nth j worst zero)) by (rewrite Ea, Eb; ring). exact G2. Qed.
  Lemma add_form A B a b k : fin A -> fin B -> val A = a -> val B = b -> 0 <= a <= 3 -> 0 <= b <= 2 -> a = 1 + rfactor k -> b = - rfactor k ->
    fon_line k others worst (dvadd (dvscale A xbar) (dvscale B worst)).
  Proof. intros FA FB VA VB Ha Hb Ea Eb. rewrite <- VA in Ha, Ea. rewrite <- VB in Hb, Eb. clear a b VA VB. pose proof xbar_len as Lx. pose proof worst_len as Lw. assert (Ly : length (dvadd (dvscale A xbar) (dvscale B worst)) = d) by (unfold dvadd, dvscale; rewrite map2_length; rewrite !map_length; congruence).
    split; [congruence|]. rewrite Ly. intros L M (HM & Bd) j Hj. pose proof (Forall_inv Bd) as Bw. pose proof (Forall_inv_tail Bd) as Bo. fold n.
    assert (En : nth j (dvadd (dvscale (A) xbar) (dvscale B worst)) zero = fadd (fmul A (nth j xbar zero)) (fmul B (nth j worst zero))).
    { unfold dvadd. rewrite (nth_map2 _ _ _ j zero zero zero); unfold dvscale; rewrite ?map_length; try congruence. change (map (fmul A) xbar) with (dvscale A xbar). change (map (fmul B) worst) with (dvscale B worst). rewrite !nth_dscale by congruence. auto. }
    unfold rcoord at 1. rewrite En. destruct (xbar_coord M j L (conj HM Bo) Hj) as (F1 & E1 & B1).
    destruct (cand_coord M HM A B (val A) (val B) (nth j xbar zero) (fold_right Rplus 0 (map (rcoord j) others) / INR n) (nth j worst zero) FA FB eq_refl eq_refl Ha Hb F1 E1 B1 (coord_ok M worst j (conj HM (Forall_cons _ Bw (Forall_nil _))))) as (_ & (G1 & G2)).
    split; auto. cbv zeta. set (C := _ / INR n) in *. unfold rcoord. rewrite ?En. replace (pw (-45) * M) with (256 * (pw (-53) * M)) by (change (-45)%Z with (8 + -53)%Z; rewrite <- pw_mul; change (pw 8) with 256; ring).
    replace (C + rfactor k * (C - val (nth j worst zero))) with (val A * C + val B * val (nth j worst zero)) by (rewrite Ea, Eb; ring). exact G2. Qed.
End Candidates.
Lemma shrunk_halfway d x0 x : length x0 = d -> length x = d -> fhalfway x0 x (shrunk x0 x).
Proof. intros L0 L. assert (Ls : length (dvscale dhalf (dvsub x x0)) = d) by (unfold dvscale, dvsub; rewrite map_length, map2_length; congruence). assert (Ly : length (shrunk x0 x) = d) by (unfold shrunk, dvadd; rewrite map2_length; congruence).
  split; [congruence|]. rewrite Ly. intros M (HM & B) j Hj. inversion B as [|? ? B0 B']; subst. inversion B' as [|? ? B1 _]; subst. destruct const_vals as (_ & _ & _ & (FH & VH) & _).
  assert (En : nth j (shrunk x0 x) zero = fadd (nth j x0 zero) (fmul dhalf (fsub (nth j x zero) (nth j x0 zero)))).
  { unfold shrunk, dvadd. rewrite (nth_map2 _ _ _ j zero zero zero); try congruence. f_equal. rewrite nth_dscale by (unfold dvsub; rewrite map2_length; congruence). f_equal. unfold dvsub. apply nth_map2; congruence. }
  unfold rcoord at 1. rewrite En. destruct (shrink_coord M HM dhalf (nth j x0 zero) (nth j x zero) FH VH (coord_ok M x0 j (conj HM (Forall_cons _ B0 (Forall_nil _)))) (coord_ok M x j (conj HM (Forall_cons _ B1 (Forall_nil _))))) as (G1 & G2).
  split; auto. unfold rcoord. rewrite ?En. replace (pw (-50) * M) with (8 * (pw (-53) * M)) by (change (-50)%Z with (3 + -53)%Z; rewrite <- pw_mul; change (pw 3) with 8; ring). exact G2. Qed.

Lemma blown_stretched d x0 x : length x0 = d -> length x = d -> fstretched x0 x (dvadd x0 (dvscale dthree_halves (dvsub x x0))).
Proof. intros L0 L. assert (Ls : length (dvscale dthree_halves (dvsub x x0)) = d) by (unfold dvscale, dvsub; rewrite map_length, map2_length; congruence). assert (Ly : length (dvadd x0 (dvscale dthree_halves (dvsub x x0))) = d) by (unfold dvadd; rewrite map2_length; congruence).
  split; [congruence|]. rewrite Ly. intros M (HM & B) j Hj. inversion B as [|? ? B0 B']; subst. inversion B' as [|? ? B1 _]; subst. destruct const_vals as (_ & _ & _ & _ & (FH & VH)).
  assert (En : nth j (dvadd x0 (dvscale dthree_halves (dvsub x x0))) zero = fadd (nth j x0 zero) (fmul dthree_halves (fsub (nth j x zero) (nth j x0 zero)))).
  { unfold dvadd. rewrite (nth_map2 _ _ _ j zero zero zero); try congruence. f_equal. rewrite nth_dscale by (unfold dvsub; rewrite map2_length; congruence). f_equal. unfold dvsub. apply nth_map2; congruence. }
  unfold rcoord at 1. rewrite En. destruct (stretch_coord M HM dthree_halves (nth j x0 zero) (nth j x zero) FH VH (coord_ok M x0 j (conj HM (Forall_cons _ B0 (Forall_nil _)))) (coord_ok M x j (conj HM (Forall_cons _ B1 (Forall_nil _))))) as (G1 & G2).
  split; auto. unfold rcoord. rewrite ?En. replace (pw (-49) * M) with (16 * (pw (-53) * M)) by (change (-49)%Z with (4 + -53)%Z; rewrite <- pw_mul; change (pw 4) with 16; ring). exact G2. Qed.

(** ** One move *)
Section Move.
  Variable func : nat -> fpoint -> res double.
  Notation lt := (fun x y : double => flt x y = true).
  Notation le := (fun x y : double => dle x y = true).
  Notation step := (nm_step lt le fon_line fhalfway).
  Lemma not_true b : b = false -> ~ b = true.
  Proof. congruence. Qed.

  Lemma dnm_move_step n sim fsim w sim' fsim' w' : is_dsimplex n sim -> length fsim = S n -> dnm_move func n sim fsim w = Ok (sim', fsim', w') ->
    exists e, dextends func w w' e /\ step (combine sim fsim) e (combine sim' fsim').
  Proof. intros (N & L & F) Lf E. destruct (simplex_shape n sim fsim N L Lf) as (x0 & xs & xw & f0 & fs & fw & -> & -> & Lx & Ln).
    set (others := x0 :: xs) in *. set (fothers := f0 :: fs) in *. assert (Lo : length others = n) by (unfold others; cbn; lia). assert (Lfo : length others = length fothers) by (unfold others, fothers; cbn; lia).
    set (os := combine xs fs). assert (Hc : combine (others ++ [xw]) (fothers ++ [fw]) = ((x0, f0) :: os) ++ [(xw, fw)]) by (rewrite combine_app by auto; reflexivity).
    assert (Hm : map fst ((x0, f0) :: os) = others) by (apply (map_fst_combine others fothers); auto).
    assert (Hs : forall y v, combine (set_last (others ++ [xw]) y) (set_last (fothers ++ [fw]) v) = ((x0, f0) :: os) ++ [(y, v)]) by (intros y v; unfold set_last; rewrite !removelast_last, combine_app by auto; reflexivity).
    unfold dnm_move in E. rewrite removelast_last, last_last, last_last in E. replace (removelast (fothers ++ [fw])) with fothers in E by (symmetry; apply removelast_last). rewrite Hc.
    assert (H0 : hd nan (fothers ++ [fw]) = f0) by reflexivity. rewrite H0 in E.
    destruct (exists_last (l := (x0, f0) :: os)) as (front & second & Hl); [discriminate|].
    assert (H2 : last fothers nan = snd second). { rewrite <- (map_snd_combine others fothers Lfo). change (combine others fothers) with ((x0, f0) :: os). rewrite Hl, map_app. cbn [map]. apply last_last. } rewrite H2 in E.
    destruct const_vals as ((F1 & V1) & (Fd2 & V2) & (F3 & V3) & (Fh & Vh) & (F32 & V32)). assert (Ne : others <> []) by (unfold others; intros HH; discriminate HH). assert (On : forall k A B, fin A -> fin B -> 0 <= val A <= 3 -> 0 <= val B <= 2 -> val A = 1 + rfactor k -> val B = rfactor k -> fon_line k others xw (dvsub (dvscale A (dcentroid n others)) (dvscale B xw))) by (intros; rewrite <- Lo; apply (sub_form n others xw Ne F A B (val A) (val B)); auto). assert (Oa : forall k A B, fin A -> fin B -> 0 <= val A <= 3 -> 0 <= val B <= 2 -> val A = 1 + rfactor k -> val B = - rfactor k -> fon_line k others xw (dvadd (dvscale A (dcentroid n others)) (dvscale B xw))) by (intros; rewrite <- Lo; apply (add_form n others xw Ne F A B (val A) (val B)); auto).
    set (xr := dvsub (dvscale dtwo _) _) in E. assert (Hr : fon_line Reflection (map fst ((x0, f0) :: os)) xw xr) by (rewrite Hm; apply On; auto; cbn [rfactor]; lra).
    destruct (dcall func w xr) as [[w1 fxr]|e] eqn:Cr; cbn [bind] in E; [|discriminate]. apply dcall_spec in Cr as [Cr _].
    destruct (flt fxr f0) eqn:B1.
    { set (xe := dvsub (dvscale dthree _) _) in E. assert (He : fon_line Expansion (map fst ((x0, f0) :: os)) xw xe) by (rewrite Hm; apply On; auto; cbn [rfactor]; lra).
      destruct (dcall func w1 xe) as [[w2 fxe]|e] eqn:Ce; cbn [bind] in E; [|discriminate]. apply dcall_spec in Ce as [Ce _]. pose proof (dextends_trans _ _ _ _ _ _ Cr Ce) as X. cbn [app] in X.
      destruct (flt fxe fxr) eqn:B2; injection E as <- <- <-; rewrite Hs; (eexists; split; [exact X|]).
      - apply step_expand; auto.
      - apply step_expand_rejected; auto. apply not_true. auto. }
    destruct (flt fxr (snd second)) eqn:B2.
    { injection E as <- <- <-. rewrite Hs. eexists; split; [exact Cr|]. eapply step_reflect; eauto. apply not_true. auto. }
    assert (Fin : forall y v w2, dextends func w1 w2 [(y, v)] -> (flt fxr fw = true /\ fon_line Outside (map fst ((x0, f0) :: os)) xw y /\ ~ dle v fxr = true \/ ~ flt fxr fw = true /\ fon_line Inside (map fst ((x0, f0) :: os)) xw y /\ ~ flt v fw = true) ->
      (let! r := dshrink_loop func (hd [] (others ++ [xw])) w2 (tl (others ++ [xw])) in let '(w, ys, vs) := r in Ok (hd [] (others ++ [xw]) :: ys, f0 :: vs, w)) = Ok (sim', fsim', w') ->
      exists e, dextends func w w' e /\ step (((x0, f0) :: os) ++ [(xw, fw)]) e (combine sim' fsim')).
    { intros y v w2 X1 Hy E2. pose proof (dextends_trans _ _ _ _ _ _ Cr X1) as X. cbn [app] in X. change (hd [] (others ++ [xw])) with x0 in E2. change (tl (others ++ [xw])) with (xs ++ [xw]) in E2.
      destruct (dshrink_loop func x0 w2 (xs ++ [xw])) as [[[w3 ys] vs]|e] eqn:Cs; cbn [bind] in E2; [|discriminate]. injection E2 as <- <- <-. apply dshrink_spec in Cs as (Ys & Lv & Xs).
      eexists; split; [exact (dextends_trans _ _ _ _ _ _ X Xs)|]. cbn [app combine]. eapply step_shrink; eauto; try (apply not_true; auto).
      assert (Ly : length ys = length vs) by (subst ys; rewrite map_length; auto). assert (F2 : Forall2 (fun x y => fhalfway x0 x y) (xs ++ [xw]) ys).
      { subst ys. clear - F. unfold others in F. cbn in F. inversion F as [|? ? L0 F']; subst. clear F. induction (xs ++ [xw]) as [|x l IH]; cbn; constructor; inversion F'; subst; auto. apply (shrunk_halfway (length x0)); auto. }
      assert (Hc2 : os ++ [(xw, fw)] = combine (xs ++ [xw]) (fs ++ [fw])) by (unfold os; rewrite combine_app by auto; reflexivity). rewrite Hc2. cbn [fst].
      assert (L2 : length (xs ++ [xw]) = length (fs ++ [fw])) by (rewrite !app_length; cbn; lia). clear - F2 Ly L2. revert vs Ly L2. generalize (fs ++ [fw]). induction F2 as [|x y l m H F2 IH]; intros [|f g] [|v vs] Ly L2; cbn in *; try discriminate; constructor; auto. }
    destruct (flt fxr fw) eqn:B3.
    - set (xc := dvsub (dvscale dthree_halves _) _) in E. assert (Hxc : fon_line Outside (map fst ((x0, f0) :: os)) xw xc) by (rewrite Hm; apply On; auto; cbn [rfactor]; lra).
      destruct (dcall func w1 xc) as [[w2 fxc]|e] eqn:Cc; cbn [bind] in E; [|discriminate]. apply dcall_spec in Cc as [Cc _].
      destruct (dle fxc fxr) eqn:B4; cbn [bind] in E.
      + injection E as <- <- <-. rewrite Hs. eexists; split; [exact (dextends_trans _ _ _ _ _ _ Cr Cc)|]. cbn [app]. eapply step_outside; eauto; apply not_true; auto.
      + apply (Fin xc fxc w2); auto. left. split; [auto|]. split; [exact Hxc|]. congruence.
    - set (xc := dvadd (dvscale dhalf _) _) in E. assert (Hxc : fon_line Inside (map fst ((x0, f0) :: os)) xw xc) by (rewrite Hm; apply Oa; auto; cbn [rfactor]; lra).
      destruct (dcall func w1 xc) as [[w2 fxc]|e] eqn:Cc; cbn [bind] in E; [|discriminate]. apply dcall_spec in Cc as [Cc _].
      destruct (flt fxc fw) eqn:B4; cbn [bind] in E.
      + injection E as <- <- <-. rewrite Hs. eexists; split; [exact (dextends_trans _ _ _ _ _ _ Cr Cc)|]. cbn [app]. eapply step_inside; eauto; apply not_true; auto.
      + apply (Fin xc fxc w2); auto. right. split; [congruence|]. split; [exact Hxc|]. congruence. Qed.
End Move.

(** ** The whole run *)
Section Run.
  Variable argsort : list double -> list nat.
  Variable np_dmin : list double -> double.
  Hypothesis Hsort : dargsort_ok argsort.
  Variable func : nat -> fpoint -> res double.
  Notation lt := (fun x y : double => flt x y = true).
  Notation le := (fun x y : double => dle x y = true).
  Notation ord := (fun x y : double => dnle x y = true).
  Notation step := (nm_step lt le fon_line fhalfway).

  Lemma dsorted_combine (sim : list fpoint) (fsim : list double) : length sim = length fsim -> Sorted (fun x y => dnle x y = true) fsim -> Sorted (fun x y : fpoint * double => dnle (snd x) (snd y) = true) (combine sim fsim).
  Proof. intros L S. revert sim L. induction S as [|f fs S IH H]; intros [|x xs] L; cbn in *; try discriminate; constructor; auto. destruct xs, fs; cbn in *; try discriminate; constructor. inversion H; auto. Qed.

  Lemma dloop_chain fuel : forall n maxfun maxiter p s s', dnm_inv func (dp_keep p) n s ->
    dnm_loop argsort func fuel n maxfun maxiter p s = Ok s' ->
    exists es bs, nm_chain lt le ord fon_line fhalfway (fcontinues p maxfun maxiter) (combine (ds_sim s) (ds_fsim s)) (dw_calls (ds_world s)) (ds_iter s) es bs /\
      (if dp_keep p then ds_hist s' = ds_hist s ++ map (map fst) bs /\ ds_fhist s' = ds_fhist s ++ map (map snd) bs else True) /\
      combine (ds_sim s') (ds_fsim s') = last bs (combine (ds_sim s) (ds_fsim s)) /\
      dw_log (ds_world s') = dw_log (ds_world s) ++ concat es /\ ds_iter s' = (ds_iter s + length es)%nat.
  Proof. induction fuel as [|fuel IH]; intros n maxfun maxiter p s s' I E.
    - cbn [dnm_loop] in E. destruct ((_ <? _)%nat && _)%bool eqn:B; [discriminate|]. injection E as <-. exists [], []. split; [constructor|]. cbn. rewrite !app_nil_r. split; [destruct (dp_keep p); auto|]. repeat split; auto.
    - cbn [dnm_loop] in E.
      assert (Done : s = s' -> exists es bs, nm_chain lt le ord fon_line fhalfway (fcontinues p maxfun maxiter) (combine (ds_sim s) (ds_fsim s)) (dw_calls (ds_world s)) (ds_iter s) es bs /\
        (if dp_keep p then ds_hist s' = ds_hist s ++ map (map fst) bs /\ ds_fhist s' = ds_fhist s ++ map (map snd) bs else True) /\ combine (ds_sim s') (ds_fsim s') = last bs (combine (ds_sim s) (ds_fsim s)) /\
        dw_log (ds_world s') = dw_log (ds_world s) ++ concat es /\ ds_iter s' = (ds_iter s + length es)%nat).
      { intros <-. exists [], []. split; [constructor|]. cbn. rewrite !app_nil_r. split; [destruct (dp_keep p); auto|]. repeat split; auto. }
      destruct ((_ <? _)%nat && _)%bool eqn:B; [|apply Done; congruence]. apply andb_true_iff in B as [B1 B2]. apply Nat.ltb_lt in B1, B2.
      destruct (dfprime_exceeded _ _ _) as [b|] eqn:Ef; cbn [bind] in E; [|discriminate]. destruct b; [apply Done; congruence|].
      destruct (dconverged p _ _) as [b|] eqn:Ec; cbn [bind] in E; [|discriminate]. destruct b; [apply Done; congruence|].
      destruct (dnm_move _ _ _ _ _) as [[[sim1 fsim1] w1]|] eqn:Em; cbn [bind] in E; [|discriminate].
      destruct (dsort_simplex argsort sim1 fsim1) as [sim2 fsim2] eqn:Es.
      destruct (dinv_step argsort Hsort func n (dp_keep p) s sim1 fsim1 w1 sim2 fsim2 I Em Es) as (I2 & _).
      assert (Is : is_dsimplex n (ds_sim s) /\ length (ds_fsim s) = S n) by (split; apply I). destruct Is as (Is & Lf). assert (Ls : length (ds_sim s) = S n) by apply Is.
      destruct (dnm_move_step func n _ _ _ _ _ _ Is Lf Em) as (e & (X1 & X2 & X3) & St).
      destruct (dnm_move_spec func n (ds_sim s) (ds_fsim s) (ds_world s) sim1 fsim1 w1) as (ext & _ & _ & O); auto; [apply I|].
      assert (L1 : length sim1 = length fsim1).
      { destruct O as [(y & v & _ & -> & -> & _)|(ys & vs & -> & -> & _ & Lv & _)]; [rewrite !set_last_length; try congruence; intros H; rewrite H in *; discriminate|cbn; lia]. }
      destruct (dsort_spec argsort Hsort sim1 fsim1 sim2 fsim2 L1 Es) as (S1 & S2 & S3 & S4 & S5).
      destruct (IH _ _ _ _ _ _ I2 E) as (es & bs & Ch & Hh & Hl & Hw & Hi). cbn [ds_sim ds_fsim ds_world ds_iter ds_hist ds_fhist] in *.
      assert (L2 : length sim2 = length fsim2) by (rewrite (Permutation_length S1), (Permutation_length S2); auto).
      exists (e :: es), (combine sim2 fsim2 :: bs). split; [|split; [|split; [|split]]].
      + econstructor; [|exact St| |apply dsorted_combine; auto|rewrite <- X2; exact Ch].
        * split; auto. split; auto. rewrite map_fst_combine, map_snd_combine by congruence. split.
          { exists (hd nan (ds_fsim s)). split; auto. destruct (ds_fsim s); [discriminate|reflexivity]. }
          intros T. apply (dconverged_spec n p _ _ Is Lf) in T. congruence.
        * apply Permutation_sym. exact S3.
      + destruct (dp_keep p); auto. destruct Hh as (-> & ->). unfold extend_history. cbn [map]. rewrite map_fst_combine, map_snd_combine, <- !app_assoc by auto. auto.
      + rewrite Hl. symmetry. apply last_shift.
      + rewrite Hw, X1. cbn [concat]. rewrite app_assoc. auto.
      + rewrite Hi. cbn. lia. Qed.

  Lemma droot_chain n p initial r w : is_dsimplex n initial -> droot_nelder_mead argsort np_dmin func p initial = Ok (r, w) ->
    exists f0 start es bs, length f0 = length initial /\ Permutation (combine initial f0) start /\ Sorted (fun x y : fpoint * double => dnle (snd x) (snd y) = true) start /\
      nm_chain lt le ord fon_line fhalfway (fcontinues p (limit (dp_maxfev p) n) (limit (dp_maxiter p) n)) start (S n) 1 es bs /\
      dw_log w = combine initial f0 ++ concat es /\ dr_num_iter r = S (length es) /\
      (exists best rest, last bs start = best :: rest /\ dr_pos r = fst best) /\
      (dp_keep p = true -> dr_simplex_history r = map (map fst) (start :: bs) /\ dr_fun_history r = Some (map (map snd) (start :: bs))).
  Proof. intros Hi E. unfold droot_nelder_mead in E. destruct initial as [|x0 xs] eqn:Ein; [discriminate|]. rewrite <- Ein in *.
    assert (L0 : length x0 = n). { destruct Hi as (_ & _ & F). rewrite Ein in F. inversion F; auto. }
    rewrite L0 in E. rewrite (proj2 (dwell_shaped_spec n initial (proj1 Hi)) Hi) in E. cbn [negb] in E.
    destruct (dcall_all func _ initial) as [[w0 f0]|] eqn:C; cbn [bind] in E; [|discriminate].
    destruct (dsort_simplex argsort initial f0) as [sim fsim] eqn:Es.
    destruct (dinit_inv argsort Hsort func n initial w0 f0 sim fsim (dp_keep p) Hi C Es) as (Iv & W & LW & LF).
    destruct (dnm_loop _ _ _ _ _ _ _ _) as [s|] eqn:El; cbn [bind] in E; [|discriminate].
    destruct (dnm_status _ _ _ _ _) as [st|] eqn:St; cbn [bind] in E; [|discriminate]. injection E as <- <-.
    destruct (dloop_spec argsort Hsort func _ _ _ _ _ _ _ Iv El) as (I2 & _).
    destruct (dloop_chain _ _ _ _ _ _ _ Iv El) as (es & bs & Ch & Hh & Hl & Hw & Hit). cbn [ds_sim ds_fsim ds_world ds_iter ds_hist ds_fhist] in *.
    destruct (dsort_spec argsort Hsort initial f0 sim fsim (eq_sym LF) Es) as (S1 & S2 & S3 & S4 & S5).
    exists f0, (combine sim fsim), es, bs. split; auto. split; [apply Permutation_sym; auto|]. split; [apply dsorted_combine; auto|]. split; [rewrite <- W; exact Ch|]. split; [rewrite Hw, LW; auto|]. split; [cbn; rewrite Hit; auto|]. split.
    - cbn [dr_pos]. rewrite <- Hl. assert (Ls : length (ds_sim s) = S n) by apply I2. assert (Lfs : length (ds_fsim s) = S n) by apply I2. destruct (ds_sim s) as [|a l]; [discriminate|]. destruct (ds_fsim s) as [|b m]; [discriminate|]. exists (a, b), (combine l m). auto.
    - intros K. cbn [dr_simplex_history dr_fun_history]. rewrite K in *. destruct Hh as (-> & ->). cbn [map app]. rewrite map_fst_combine, map_snd_combine by auto. auto. Qed.
End Run.
