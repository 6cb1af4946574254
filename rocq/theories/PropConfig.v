(** Property theorems C56: the search that results from the user's arguments. *)
From Coq Require Import String.
From Verif Require Import Base BaseFacts CoordSys SpecGeom CoordSysFacts CellList Values Container SpecContainer Queue QueueFacts SpecQueue
  Mesh SpecMesh MeshFacts Hdf5 NelderMead SpecMin Controller SpecSearch SpecRun SearchStart SearchEnd Config SpecConfig ConfigFacts PropMesh.
Open Scope list_scope.
Open Scope Qc_scope.

Lemma scale_multiplied c raw : multiplied c raw (scale_stencil c raw).
Proof. unfold multiplied, scale_stencil. induction raw as [|s raw IH]; cbn; constructor; auto.
  induction s as [|p s IHs]; cbn; constructor; auto. induction p as [|x p IHp]; cbn; constructor; auto. ring. Qed.

(** the attributes in terms of the arguments: sorted limits, cutoff a third of the
    feature size, stencil in units of the cutoff, tolerances of the minimizer 5% of
    the threshold and 3% of the cutoff unless given *)
Theorem C56_configuration : forall circle sphere order a init load quiet lf force g p s,
  make_controller circle sphere order a init load quiet lf force = Ok (g, p, s) ->
  limits (g_cs g) = map (fun l => (qmin (fst l) (snd l), qmax (fst l) (snd l))) (a_limits a) /\
  periodic (g_cs g) = a_periodic a /\ g_gap g = Fin (a_gap a) /\ qc 3 * g_cutoff g = a_feature a /\
  g_parallel g = a_parallel a /\ g_recheck g = a_recheck a /\ g_count_cutoff g = a_count_cutoff a /\ g_simplex_cutoff g = a_simplex_cutoff a /\
  match a_stencil a with
  | StNone => g_stencil g = None
  | StGiven raw => exists st, g_stencil g = Some st /\ multiplied (a_feature a / qc 3) raw st
  | StAuto => exists raw st, g_stencil g = Some st /\ multiplied (a_feature a / qc 3) raw st /\
      match length (a_limits a) with 2%nat => raw = circle | 3%nat => raw = sphere | n => get_auto_mesh_stencil n = Ok raw end
  end /\
  match u_xtol (a_kwargs a) with Some x => p_xtol p = x | None => qc 100 * p_xtol p = a_feature a end /\
  match u_ftol (a_kwargs a) with Some f => p_ftol p = f | None => exists f, p_ftol p = Fin f /\ qc 20 * f = a_gap a end /\
  (u_maxiter (a_kwargs a) = None -> p_maxiter p = None) /\ (forall m, u_maxiter (a_kwargs a) = Some m -> p_maxiter p = m) /\
  (u_maxfev (a_kwargs a) = None -> p_maxfev p = None) /\ (forall m, u_maxfev (a_kwargs a) = Some m -> p_maxfev p = m) /\
  (u_fprime (a_kwargs a) = None -> p_fprime p = None) /\ (forall m, u_fprime (a_kwargs a) = Some m -> p_fprime p = m) /\
  (u_keep (a_kwargs a) = None -> p_keep p = true) /\ (forall m, u_keep (a_kwargs a) = Some m -> p_keep p = m).
Proof. intros circle sphere order a init load quiet lf force g p s. unfold make_controller.
  destruct (check_dimensions (a_limits a) (a_mesh a)) as [[n ms]|] eqn:Ed; [|discriminate]. cbn [bind fst snd].
  assert (En : n = length (a_limits a)). { unfold check_dimensions in Ed. destruct (_ =? _)%nat; [injection Ed; auto|discriminate]. }
  destruct (create_state _ _ _ _ _ _ _ _ _ _) as [s'|]; [|discriminate]. cbn [bind].
  destruct (used_stencil _ _ _ _ _) as [st|] eqn:Es; [|discriminate]. cbn [bind]. intros E. injection E as <- <- <-.
  cbn [g_cs g_gap g_cutoff g_stencil g_parallel g_recheck g_count_cutoff g_simplex_cutoff limits periodic coordinate_system].
  split. { apply map_ext. intros l. unfold sort2, qmin, qmax. destruct l as [x y]. cbn [fst snd]. dltb y x; dltb x y; auto; [exfalso; qlra|]. f_equal; qlra. }
  split; [auto|]. split; [auto|]. split; [apply cutoff_third|]. do 4 (split; [auto|]). split.
  { destruct (a_stencil a) as [| |raw]; cbn [used_stencil] in Es.
    - injection Es as <-. auto.
    - destruct (get_auto_stencil circle sphere n) as [raw|] eqn:Ea; [|discriminate]. cbn [bind] in Es. injection Es as <-. exists raw. eexists. split; [reflexivity|].
      split; [apply scale_multiplied|]. unfold get_auto_stencil in Ea. rewrite <- En. destruct n as [|[|[|[|n]]]]; cbn [Nat.eqb] in Ea; auto; congruence.
    - injection Es as <-. eexists. split; [reflexivity|]. apply scale_multiplied. }
  unfold nelder_mead_kwargs. cbn [p_xtol p_ftol p_maxiter p_maxfev p_fprime p_keep]. split.
  { destruct (u_xtol (a_kwargs a)); cbn [default]; auto. rewrite <- (cutoff_third (a_feature a)) at 2.
    replace (qc 3) with (qc 100 * Q2Qc (3 # 100)) by (apply Qc_is_canon; reflexivity). ring. }
  split. { destruct (u_ftol (a_kwargs a)); cbn [default]; auto. eexists. split; [reflexivity|].
    rewrite <- (Qcmult_1_l (a_gap a)) at 2. replace 1 with (qc 20 * Q2Qc (5 # 100)) by (apply Qc_is_canon; reflexivity). ring. }
  split; [intros ->; auto|]. split; [intros m ->; auto|]. split; [intros ->; auto|]. split; [intros m ->; auto|].
  split; [intros ->; auto|]. split; [intros m ->; auto|]. split; [intros ->; auto|]. intros m ->; auto. Qed.
Print Assumptions C56_configuration.

Lemma usable_nodup n st : usable_stencil n st -> NoDup (map norm_simplex st).
Proof. intros [_ H]. apply perm_nodup. auto. Qed.
Lemma auto_usable n : exists raw, get_auto_mesh_stencil n = Ok raw /\ usable_stencil n raw.
Proof. destruct (C17_mesh_stencil n 1) as (raw & E & _ & P & F); [reflexivity|]. exists raw. split; auto. split; auto.
  apply Forall_forall. intros s Hs. apply F. auto. Qed.
Lemma size_sorted l : snd (sort2 l) - fst (sort2 l) = qabs (snd l - fst l).
Proof. unfold sort2, qabs. destruct l as [x y]. cbn [fst snd]. dltb y x; dltb (y - x) 0; cbn [fst snd]; auto; try (exfalso; qlra). ring. Qed.

Lemma make_controller_ok circle sphere order a lf load force : valid_args circle sphere a ->
  (load = false \/ (load = true /\ lf = Err IOError)) ->
  exists g p s ss, make_controller circle sphere order a None load true lf force = Ok (g, p, s) /\ good_config g /\
    good_start g s [] [] (map norm_simplex ss) [] /\ proper_simplices g (map norm_simplex ss) /\
    length ss = fold_right Nat.mul 1%nat (match a_mesh a with MeshInt n => repeat n (length (a_limits a)) | MeshList l => l end).
Proof. intros [V0 V1 V2 V3 V4 V5] L.
  set (ms := match a_mesh a with MeshInt n => repeat n (length (a_limits a)) | MeshList l => l end).
  set (cs := coordinate_system (a_limits a) (a_periodic a)). set (c := dist_cutoff (a_feature a)). pose proof (cutoff_pos _ V2 : 0 < c) as Cp.
  assert (Lc : length (limits cs) = length (a_limits a)) by (unfold cs; cbn; apply map_length).
  assert (Lm : length ms = length (a_limits a)). { unfold ms. destruct (a_mesh a); [apply repeat_length|tauto]. }
  assert (Fm : Forall (fun m => (1 <= m)%nat) ms). { unfold ms. destruct (a_mesh a); [|tauto]. apply Forall_forall. intros x Hx. apply repeat_spec in Hx. lia. }
  assert (W : wf_box cs) by (apply sorted_wf; auto).
  assert (Ed : check_dimensions (a_limits a) (a_mesh a) = Ok (length (a_limits a), ms)).
  { unfold check_dimensions. fold ms. rewrite Lm, Nat.eqb_refl. auto. }
  assert (St : exists st, used_stencil circle sphere (a_stencil a) (length (a_limits a)) c = Ok st /\
    forall x, st = Some x -> exists raw, x = scale_stencil c raw /\ usable_stencil (length (a_limits a)) raw).
  { destruct (a_stencil a) as [| |raw]; cbn [used_stencil].
    - exists None. split; auto. discriminate.
    - unfold get_auto_stencil. destruct (length (a_limits a) =? 2)%nat eqn:E2; [|destruct (length (a_limits a) =? 3)%nat eqn:E3].
      + apply Nat.eqb_eq in E2. eexists. split; [reflexivity|]. intros x H. injection H as <-. exists circle. rewrite E2 in *. split; [reflexivity|]. apply V5; reflexivity.
      + apply Nat.eqb_eq in E3. eexists. split; [reflexivity|]. intros x H. injection H as <-. exists sphere. rewrite E3 in *. split; [reflexivity|]. apply V5; reflexivity.
      + destruct (auto_usable (length (a_limits a))) as (raw & -> & U). cbn [bind]. eexists. split; [reflexivity|]. intros x H. injection H as <-. exists raw. auto.
    - eexists. split; [reflexivity|]. intros x H. injection H as <-. exists raw. auto. }
  destruct St as (st & Es & Us).
  set (g := mk_config cs (Fin (a_gap a)) c st (a_parallel a) (a_recheck a) (a_count_cutoff a) (a_simplex_cutoff a)).
  assert (GC : good_config g).
  { constructor; cbn; auto.
    - destruct V3 as [V3|V3]; [left; auto|right]. unfold cs. cbn. rewrite Forall_forall in *. intros l Hl. apply in_map_iff in Hl as (m & <- & Hm).
      rewrite size_sorted. specialize (V3 m Hm). rewrite <- (cutoff_third (a_feature a)) in V3. fold c in V3.
      set (y := qabs _) in *. clearbody y c. replace (qc 6) with ((1+1+1)*(1+1)) in V3 by (apply Qc_is_canon; reflexivity).
      replace (qc 3) with (1+1+1) in V3 by (apply Qc_is_canon; reflexivity). replace (qc 2) with (1+1) by (apply Qc_is_canon; reflexivity). qlra.
    - intros x ->. destruct (Us x eq_refl) as (raw & -> & U). split.
      + apply scale_nodup; [|eapply usable_nodup; eauto]. intros X. rewrite X in Cp. discriminate Cp.
      + unfold is_pos. rewrite Lc. apply scale_lengths. destruct U as [U _]. eapply Forall_impl; [|exact U]. intros z (_ & _ & Z). exact Z. }
  assert (MA : mesh_args (limits (g_cs g)) ms). { split; [cbn; unfold cs in Lc; cbn in Lc; lia|]. split; [exact W|auto]. }
  destruct (fresh_start g order load lf ms force GC MA L) as (ss & s & E1 & E2 & E3).
  exists g, (nelder_mead_kwargs (a_gap a) c (a_kwargs a)), s, ss. split; [|split; [exact GC|split; [exact E3|split]]].
  - unfold make_controller. rewrite Ed. cbn [bind fst snd]. fold cs c. change (create_state order cs (Fin (a_gap a)) c None load true lf ms force = Ok s) in E2.
    rewrite E2. cbn [bind]. rewrite Es. cbn [bind]. reflexivity.
  - split.
    + apply Forall_forall. intros x Hx. apply in_map_iff in Hx as (y & <- & Hy). destruct (mesh_shape _ _ _ _ MA E1) as (_ & _ & Sh & _).
      rewrite Forall_forall in Sh. destruct (Sh y Hy) as [(A & B & C)|N]; [|cbn in N; unfold cs in Lc; cbn in Lc; rewrite N in Lc; destruct (a_limits a); [congruence|discriminate]].
      split; auto. pose proof (norm_simplex_perm y) as Pm. split; [rewrite (Permutation_length Pm); auto|].
      rewrite Forall_forall in *. intros q Hq. apply C. apply (Permutation_in _ Pm). auto.
    + intros x Hx. cbn in Hx. destruct (Us x Hx) as (raw & -> & [U _]). change (g_cs g) with cs. rewrite Lc. apply scale_simplices. auto.
  - destruct (mesh_shape _ _ _ _ MA E1) as (Len & _). exact Len. Qed.

(** valid arguments give a search that can be started: all later properties apply to
    it; the initial mesh has one simplex per mesh point *)
Theorem C56_valid_arguments : forall circle sphere order a load lf force, valid_args circle sphere a ->
  (load = false \/ (load = true /\ lf = Err IOError)) ->
  exists g p s Q, make_controller circle sphere order a None load true lf force = Ok (g, p, s) /\ good_config g /\
    good_start g s [] [] Q [] /\ proper_simplices g Q /\
    length Q = fold_right Nat.mul 1%nat (match a_mesh a with MeshInt n => repeat n (length (a_limits a)) | MeshList l => l end).
Proof. intros circle sphere order a load lf force V L. destruct (make_controller_ok circle sphere order a lf load force V L) as (g & p & s & ss & E & GC & GS & PS & Len).
  exists g, p, s, (map norm_simplex ss). rewrite map_length. auto. Qed.
Print Assumptions C56_valid_arguments.

(** with the default recheck settings, every fair run of a periodic search ends,
    whatever the arguments *)
Theorem C56_default_search_ends : forall circle sphere order a load lf force g p s, valid_args circle sphere a ->
  (load = false \/ (load = true /\ lf = Err IOError)) ->
  a_periodic a = true -> a_recheck a = true -> a_count_cutoff a = 0%nat -> (1 <= a_parallel a)%nat ->
  make_controller circle sphere order a None load true lf force = Ok (g, p, s) ->
  forall file k ev, fair_run g s file k ev -> exists i, over (k i).
Proof. intros circle sphere order a load lf force g p s V L Per Re Co Pa E file k ev F.
  destruct (make_controller_ok circle sphere order a lf load force V L) as (g' & p' & s' & ss & E' & GC & GS & _). rewrite E in E'. injection E' as <- <- <-.
  destruct (C56_configuration _ _ _ _ _ _ _ _ _ _ _ _ E) as (_ & A1 & _ & A2 & A3 & A4 & A5 & _).
  apply (ends_periodic g [] [] (map norm_simplex ss) [] s file k ev); auto; try congruence; try lia.
  destruct V as [_ _ V _ _ _]. rewrite <- A2 in V. replace (qc 3) with (1 + 1 + 1) in V by (apply Qc_is_canon; reflexivity). qnra. Qed.
Print Assumptions C56_default_search_ends.

Lemma qsum_scaled c l : qsum (map (fun x => c * x * (c * x)) l) = c * c * qsum (map (fun x => x * x) l).
Proof. unfold qsum. induction l as [|x l IH]; [cbn; ring|]. cbn [map fold_right]. rewrite IH. ring. Qed.
Lemma auto_mesh_clear n raw : get_auto_mesh_stencil n = Ok raw ->
  forall y w, In y raw -> In w y -> length w = n /\ 1 < qsum (map (fun x => x * x) w) /\ forall c, In c w -> qabs c <= Q2Qc (10 # 3).
Proof. intros E y w Hy Hw. destruct (C17_mesh_stencil n 1 ltac:(reflexivity)) as (raw' & E' & _ & _ & F). rewrite E in E'. injection E' as <-.
  destruct (F y Hy) as ((_ & _ & L) & _ & Far). specialize (Far w Hw). split; [rewrite Forall_forall in L; auto|]. split.
  - rewrite qsum_scaled in Far. set (m := qsum _) in *. clearbody m. replace (1 * 1 * m) with m in Far by ring. replace (1 * 1) with 1 in Far by ring. exact Far.
  - intros c Hc. eapply auto_mesh_bound; eauto. Qed.
(** a stencil whose vertices have length above 1 and coordinates up to 10/3 *)
Lemma stencil_clear circle sphere order a load lf force g p s raw st : valid_args circle sphere a ->
  (a_periodic a = true -> Forall (fun l => qc 20 * a_feature a <= qc 9 * qabs (snd l - fst l)) (a_limits a)) ->
  make_controller circle sphere order a None load true lf force = Ok (g, p, s) ->
  multiplied (a_feature a / qc 3) raw st ->
  (forall y w, In y raw -> In w y -> length w = length (a_limits a) /\ 1 < qsum (map (fun x => x * x) w) /\ forall c, In c w -> qabs c <= Q2Qc (10 # 3)) ->
  forall pos x v, is_pos (g_cs g) pos -> In x (map (map (vadd pos)) st) -> In v x -> dist_lt (g_cs g) pos v (g_cutoff g) = false.
Proof. intros V Sz E Ml Raw.
  destruct (C56_configuration _ _ _ _ _ _ _ _ _ _ _ _ E) as (A0 & A1 & _ & A2 & _).
  assert (Ec : g_cutoff g = a_feature a / qc 3).
  { rewrite <- A2. field. intros X. apply (f_equal this) in X. discriminate. }
  pose proof V as [V0 V1 V2 _ _ _]. assert (Cp : 0 < g_cutoff g) by (rewrite Ec; apply cutoff_pos; auto).
  rewrite <- Ec in Ml. intros pos x v Hp Hx Hv. apply in_map_iff in Hx as (y & <- & Hy). apply in_map_iff in Hv as (w & <- & Hw).
  assert (Hr : exists yr wr, In yr raw /\ In wr yr /\ Forall2 (fun x y => y = g_cutoff g * x) wr w).
  { clear - Ml Hy Hw. unfold multiplied in Ml. induction Ml as [|a b l l' H1 H2 IH]; [destruct Hy|]. destruct Hy as [-> |Hy].
    - clear - H1 Hw. assert (exists wr, In wr a /\ Forall2 (fun x y => y = g_cutoff g * x) wr w) as (wr & X & Y).
      { induction H1 as [|c d m m' H3 H4 IH']; [destruct Hw|]. destruct Hw as [-> |Hw]; [exists c; split; [left; auto|auto]|]. destruct (IH' Hw) as (wr & X & Y). exists wr. split; [right; auto|auto]. }
      exists a, wr. split; [left; auto|auto].
    - destruct (IH Hy) as (yr & wr & X & Y & Z). exists yr, wr. split; [right; auto|auto]. }
  destruct Hr as (yr & wr & H1 & H2 & H3). destruct (Raw yr wr H1 H2) as (Lw & Far0 & B).
  assert (Far : g_cutoff g * g_cutoff g < qsum (map (fun x => g_cutoff g * x * (g_cutoff g * x)) wr)).
  { rewrite qsum_scaled. clear - Far0 Cp. set (n := qsum _) in *. clearbody n. set (c := g_cutoff g) in *. clearbody c. assert (0 < c * c) by qnra. qnra. }
  assert (Lw' : length w = length wr). { clear - H3. induction H3; cbn; auto. }
  assert (Lc : length (limits (g_cs g)) = length (a_limits a)) by (rewrite A0; apply map_length).
  unfold is_pos in Hp. assert (W : wf_box (g_cs g)).
  { destruct (g_cs g) as [ls pr] eqn:Eg. unfold wf_box. cbn in *. rewrite A0. apply Forall_forall. intros l Hl. apply in_map_iff in Hl as (m & <- & Hm). rewrite Forall_forall in V1.
    specialize (V1 m Hm). cbn. unfold qmin, qmax. destruct m as [a1 b1]. cbn in *. dltb b1 a1; dltb a1 b1; auto; try (exfalso; qlra). }
  unfold dist_lt. replace (ltb 0 (g_cutoff g)) with true by (symmetry; apply ltb_spec; auto). cbn [andb]. apply ltb_false.
  rewrite dist_sq_half; auto.
  - rewrite euclid_vadd by congruence. replace (map (fun x => x * x) w) with (map (fun x => g_cutoff g * x * (g_cutoff g * x)) wr); [qlra|].
    clear - H3. induction H3 as [|a b l l' H1 H2 IH]; cbn; auto. rewrite IH, H1. auto.
  - unfold is_pos, vadd. rewrite map2_length; congruence.
  - intros Per i Hi. rewrite A1 in Per. specialize (Sz Per). unfold vadd. 
    assert (Ew : nth i w 0 = g_cutoff g * nth i wr 0).
    { clear - H3 Hi Lc Lw. revert i Hi. rewrite Lc, <- Lw. clear - H3. induction H3 as [|a b l l' H1 H2 IH]; intros i Hi; cbn in Hi; [lia|]. destruct i; cbn; auto. apply IH. lia. }
    assert (Ev : nth i (map2 Qcplus pos w) 0 - nth i pos 0 = nth i w 0).
    { clear - Hp Lw' Lw Lc Hi. assert (L1 : length pos = length w) by congruence. rewrite <- Hp in Hi. clear - L1 Hi. revert w i L1 Hi.
      induction pos as [|a pos IH]; intros [|b w] i L1 Hi; cbn in *; try lia. destruct i; [cbn; ring|]. cbn. apply IH; lia. }
    rewrite Ev, Ew. specialize (B (nth i wr 0) (nth_In wr 0 (eq_ind_r (fun z => (i < z)%nat) (eq_ind _ (fun z => (i < z)%nat) Hi _ Lc) Lw))).
    assert (S2 : nth_hi (limits (g_cs g)) i - nth_lo (limits (g_cs g)) i = qabs (snd (nth i (a_limits a) (0,0)) - fst (nth i (a_limits a) (0,0)))).
    { unfold nth_hi, nth_lo. rewrite A0. change (0, 0) with ((fun l : Qc * Qc => (qmin (fst l) (snd l), qmax (fst l) (snd l))) (0, 0)) at 1 2. rewrite map_nth.
      destruct (nth i (a_limits a) (0, 0)) as [a1 b1]. cbn [fst snd]. unfold qabs, qmin, qmax. dltb b1 a1; dltb a1 b1; dltb (b1 - a1) 0; try qlra; exfalso; qlra. }
    rewrite S2. rewrite Forall_forall in Sz. specialize (Sz _ (nth_In (a_limits a) (0,0) (eq_ind _ (fun z => (i < z)%nat) Hi _ Lc))). set (y0 := qabs (snd _ - _)) in *. clearbody y0.
    rewrite <- A2 in Sz. set (r := nth i wr 0) in *. clearbody r. set (c := g_cutoff g) in *. clearbody c.
    assert (Q1 : qabs (c * r) <= c * Q2Qc (10 # 3)).
    { unfold qabs in *. set (t := Q2Qc (10 # 3)) in *. clearbody t. clear - Cp B. assert (r <= t /\ - t <= r) as [B1 B2] by (revert B; dltb r 0; intros B; split; qlra). dltb (c * r) 0; [apply Qcle_trans with (c * - r); [qlra|]|]; rewrite !(Qcmult_comm c); (apply Qcmult_le_compat_r; [qlra|qlra]). }
    replace (qc 20 * (qc 3 * c)) with (qc 9 * (qc 2 * (c * Q2Qc (10 # 3)))) in Sz.
    + set (t := c * Q2Qc (10 # 3)) in *. clearbody t. set (u := qabs (c * r)) in *. clearbody u. replace (qc 9) with (1+1+1+1+1+1+1+1+1) in Sz by (apply Qc_is_canon; reflexivity).
      replace (qc 2) with (1+1) in * by (apply Qc_is_canon; reflexivity). qlra.
    + replace (qc 20 * (qc 3 * c)) with ((qc 20 * qc 3) * c) by ring. replace (qc 20 * qc 3) with (qc 9 * qc 2 * Q2Qc (10 # 3)) by (apply Qc_is_canon; reflexivity). ring. Qed.

(** automatic stencil, dimensions other than two and three: the vertices of the
    simplices placed around a position are not within the cutoff of that position -
    with periodicity if every side is at least 20/9 feature sizes -, so a node does
    not count against the simplices of its own refinement *)
Theorem C56_stencil_clear_of_centre : forall circle sphere order a load lf force g p s, valid_args circle sphere a ->
  a_stencil a = StAuto -> length (a_limits a) <> 2%nat -> length (a_limits a) <> 3%nat ->
  (a_periodic a = true -> Forall (fun l => qc 20 * a_feature a <= qc 9 * qabs (snd l - fst l)) (a_limits a)) ->
  make_controller circle sphere order a None load true lf force = Ok (g, p, s) ->
  exists st, g_stencil g = Some st /\ forall pos x v, is_pos (g_cs g) pos -> In x (map (map (vadd pos)) st) -> In v x ->
    dist_lt (g_cs g) pos v (g_cutoff g) = false.
Proof. intros circle sphere order a load lf force g p s V Sa N2 N3 Sz E.
  destruct (C56_configuration _ _ _ _ _ _ _ _ _ _ _ _ E) as (_ & _ & _ & _ & _ & _ & _ & _ & A3 & _). rewrite Sa in A3.
  destruct A3 as (raw & st & Es & Ml & Er). exists st. split; auto.
  assert (Er' : get_auto_mesh_stencil (length (a_limits a)) = Ok raw). { destruct (length (a_limits a)) as [|[|[|[|n]]]]; auto; congruence. }
  apply (stencil_clear circle sphere order a load lf force g p s raw st V Sz E Ml). apply auto_mesh_clear; auto. Qed.
Print Assumptions C56_stencil_clear_of_centre.

(** the hypotheses are met: the default settings on the line [1, 0] and in a
    four-dimensional box, with the automatic stencil *)
Example c56_args (lims : list (Qc * Qc)) : search_args :=
  mk_args lims true (MeshInt 10) StAuto (Q2Qc (1 # 1000000)) (Q2Qc (2 # 1000)) (mk_nm_kwargs None None None None None None) 50 true 0 0.
Theorem C56_hypotheses_met :
  valid_args [] [] (c56_args [(1, 0)]) /\ valid_args [] [] (c56_args (repeat (0, 1) 4)) /\
  Forall (fun l => qc 20 * a_feature (c56_args [(1, 0)]) <= qc 9 * qabs (snd l - fst l)) [(1, 0)] /\
  exists g p s, make_controller [] [] (fun l => l) (c56_args [(1, 0)]) None false true (Err IOError) false = Ok (g, p, s) /\
    List.length (q_queued (st_simplex s)) = 10%nat.
Proof. 
  assert (V1 : valid_args [] [] (c56_args [(1, 0)])).
  { constructor; cbn; [discriminate| |reflexivity|left; reflexivity|lia|split; discriminate]. repeat constructor. discriminate. }
  split; [exact V1|]. split.
  { constructor; cbn; [discriminate| |reflexivity|left; reflexivity|lia|split; discriminate]. repeat constructor; discriminate. }
  split. { repeat constructor; apply leb_spec; reflexivity. }
  destruct (C56_valid_arguments [] [] (fun l => l) _ false (Err IOError) false V1 (or_introl eq_refl)) as (g & p & s & Q & E & _ & GS & _ & Len).
  exists g, p, s. split; [exact E|]. destruct GS as [_ (Wq & _) _ _ _ _ _]. rewrite Wq, Len. reflexivity. Qed.
Print Assumptions C56_hypotheses_met.
