(** Stencils in double precision, scaled by the cutoff, are resolved. *)
From Coq Require Import ZArith Reals Psatz List Permutation.
From Flocq Require Import Core BinarySingleNaN Relative Mult_error.
From Verif Require Import Base BaseFacts CoordSys CellListFacts Queue QueueFacts Float FloatFacts FloatVector FloatVectorFacts FloatMin FloatCell SpecFloatCell FloatCellNum FloatCellFacts FloatController SpecFloatSearch FloatStencil Mesh SpecMesh MeshFacts FloatMesh SpecFloatMesh FloatMeshNum FloatMeshFacts
  Stencil SpecStencil StencilFacts SpecStencilApprox StencilApprox SpecFloatStencil.
From Coq Require Import Lra.
Import ListNotations.
Open Scope list_scope.
Open Scope R_scope.

(** ** Multiplying by the cutoff *)
Section Scale.
  Variable c : double.
  Hypothesis Gc : good_cutoff c.
  Let u := pw (-53).
  Lemma c_pos : 0 < val c.
  Proof. destruct Gc as (_ & L & _). pose proof (pw_pos (-400)). lra. Qed.
  Lemma scaled x X : fin x -> Rabs (val x) <= X -> X <= pw 500 -> fin (fmul x c) /\ Rabs (val (fmul x c) - val x * val c) <= u * (X * val c) + pw (-1075).
  Proof. intros Fx Bx LX. destruct Gc as (Fc & Lc & Uc). pose proof c_pos as P. pose proof (Rabs_pos (val x)) as Px.
    assert (B0 : Rabs (val x * val c) <= X * val c). { rewrite Rabs_mult, (Rabs_pos_eq (val c)) by lra. apply Rmult_le_compat_r; lra. }
    assert (B : Rabs (val x * val c) <= pw 900). { eapply Rle_trans; [exact B0|]. replace (pw 900) with (pw 500 * pw 400) by (rewrite pw_mul; reflexivity). apply Rmult_le_compat; lra. }
    destruct (fmul_val x c 900 ltac:(lia) Fx Fc B) as (F & V). split; auto. rewrite V. eapply Rle_trans; [apply rnd_rel|]. apply Rplus_le_compat_r. apply Rmult_le_compat_l; [left; apply pw_pos|auto]. Qed.
  Lemma scaled_apart x y X gap : fin x -> fin y -> Rabs (val x) <= X -> Rabs (val y) <= X -> X <= pw 500 -> gap <= Rabs (val x - val y) ->
    gap * val c - 2 * (u * (X * val c) + pw (-1075)) <= Rabs (val (fmul x c) - val (fmul y c)).
  Proof. intros Fx Fy Bx By LX G. destruct (scaled x X Fx Bx LX) as (_ & Ex). destruct (scaled y X Fy By LX) as (_ & Ey). pose proof c_pos as P.
    assert (G2 : gap * val c <= Rabs (val x * val c - val y * val c)). { rewrite <- Rmult_minus_distr_r, Rabs_mult, (Rabs_pos_eq (val c)) by lra. apply Rmult_le_compat_r; lra. }
    set (a := val (fmul x c)) in *. set (b := val (fmul y c)) in *. set (p := val x * val c) in *. set (q := val y * val c) in *.
    assert (Rabs (p - q) <= Rabs (a - b) + Rabs (a - p) + Rabs (b - q)); [|lra].
    replace (p - q) with ((a - b) + (- (a - p)) + (b - q)) by ring. eapply Rle_trans; [apply Rabs_triang|]. apply Rplus_le_compat_r. eapply Rle_trans; [apply Rabs_triang|]. rewrite Rabs_Ropp. lra. Qed.
End Scale.

Lemma scale_nth c (v : fpoint) k : nth_error (map (fun x => fmul x c) v) k = option_map (fun x => fmul x c) (nth_error v k).
Proof. apply nth_error_map. Qed.

(** general form: coordinates at most [X], one vertex of every simplex away from all vertices of
    the others by [gap] in some coordinate *)
Section General.
  Variables (boxes : list fbox) (c : double) (st : list fsimplex) (X : R) (gap : nat -> R).
  Hypothesis Gb : Forall good_box boxes.
  Hypothesis Gc : good_cutoff c.
  Hypothesis X1 : pw (-500) <= X <= pw 500.
  Hypothesis Vx : forall s v, In s st -> In v s -> length v = length boxes /\ forall x, In x v -> fin x /\ Rabs (val x) <= X.
  Hypothesis Ap : forall i j s t, i <> j -> nth_error st i = Some s -> nth_error st j = Some t -> exists v, In v s /\ forall w, In w t ->
    exists k x y, (k < length boxes)%nat /\ nth_error v k = Some x /\ nth_error w k = Some y /\ gap k <= Rabs (val x - val y).
  Hypothesis Hg : forall k b, nth_error boxes k = Some b -> resolution b <= gap k * val c / 2 /\ 2 * X * val c <= 256 * fbox_size b /\ resolution b <= fbox_size b /\ 16 * pw (-53) * X < gap k.

  Lemma scaled_resolved : resolved_stencil boxes (fscale_stencil c st).
  Proof. pose proof (c_pos c Gc) as Pc. pose proof Gc as (Fc & Lc & Uc).
    assert (T : pw (-1075) <= pw (-53) * (X * val c)). { apply Rle_trans with (pw (-53) * (pw (-500) * pw (-400))); [rewrite !pw_mul; apply pw_le; lia|]. apply Rmult_le_compat_l; [left; apply pw_pos|]. apply Rmult_le_compat; try (left; apply pw_pos); lra. }
    pose proof (pw_pos (-53)) as P53. pose proof (pw_pos (-500)) as P500. assert (PXc : 0 < X * val c) by nra.
    assert (S53 : pw (-53) <= / 4) by (change (/ 4) with (pw (-2)); apply pw_le; lia).
    split; [|split].
    - apply Forall_forall. intros b Hb. apply In_nth_error in Hb as (k & Ek). apply (Hg k b Ek).
    - apply Forall_forall. intros s' Hs. apply in_map_iff in Hs as (s & <- & Hs). apply Forall_forall. intros v' Hv. apply in_map_iff in Hv as (v & <- & Hv). destruct (Vx s v Hs Hv) as (Lv & Vv).
      assert (B : forall k b y, nth_error boxes k = Some b -> nth_error (map (fun x => fmul x c) v) k = Some y -> is_finite y = true /\ Rabs (B2R y) <= pw 8 * fbox_size b).
      { intros k b y Eb Ey. rewrite scale_nth in Ey. destruct (nth_error v k) as [x|] eqn:Ex; [|discriminate]. cbn in Ey. injection Ey as <-. destruct (Vv x (nth_error_In _ _ Ex)) as (Fx & Bx). destruct (scaled c Gc x X Fx Bx ltac:(lra)) as (F & E). split; auto. destruct (Hg k b Eb) as (_ & H2 & _).
        change (pw 8) with 256. assert (Rabs (val x * val c) <= X * val c). { rewrite Rabs_mult, (Rabs_pos_eq (val c)) by lra. apply Rmult_le_compat_r; lra. }
        assert (Rabs (val (fmul x c)) <= Rabs (val (fmul x c) - val x * val c) + Rabs (val x * val c)). { replace (val (fmul x c)) with ((val (fmul x c) - val x * val c) + val x * val c) at 1 by ring. apply Rabs_triang. }
        assert (pw (-53) * (X * val c) <= / 4 * (X * val c)) by (apply Rmult_le_compat_r; lra). lra. }
      clear -Lv B. revert v Lv B. generalize boxes as bs. induction bs as [|b bs IH]; intros [|x v] L B; cbn in L; try discriminate; cbn [map]; constructor.
      + apply (B 0%nat); reflexivity.
      + apply IH; [lia|]. intros k. apply (B (Datatypes.S k)).
    - intros i j s' t' N Ei Ej. unfold fscale_stencil in *. rewrite nth_error_map in Ei, Ej. destruct (nth_error st i) as [s|] eqn:Es; [|discriminate]. destruct (nth_error st j) as [t|] eqn:Et; [|discriminate]. cbn in Ei, Ej. injection Ei as <-. injection Ej as <-.
      destruct (Ap i j s t N Es Et) as (v & Hv & Av). exists (map (fun x => fmul x c) v). left. split; [apply in_map; auto|]. intros w' Hw. apply in_map_iff in Hw as (w & <- & Hw). destruct (Av w Hw) as (k & x & y & Hk & Ex & Ey & G).
      destruct (nth_error boxes k) as [b|] eqn:Eb; [|apply nth_error_None in Eb; lia]. exists k, b, (fmul x c), (fmul y c). split; auto. rewrite !scale_nth, Ex, Ey. split; [reflexivity|]. split; [reflexivity|].
      destruct (Vx s v (nth_error_In _ _ Es) Hv) as (_ & Vv). destruct (Vx t w (nth_error_In _ _ Et) Hw) as (_ & Vw). destruct (Vv x (nth_error_In _ _ Ex)) as (Fx & Bx). destruct (Vw y (nth_error_In _ _ Ey)) as (Fy & By).
      pose proof (scaled_apart c Gc x y X (gap k) Fx Fy Bx By ltac:(lra) G) as A. destruct (Hg k b Eb) as (H1 & _ & _ & H4).
      assert (16 * pw (-53) * X * val c < gap k * val c) by (apply Rmult_lt_compat_r; lra). pose proof (Rmult_lt_0_compat _ _ P53 PXc). cbv zeta in A. lra. Qed.
End General.

(** ** The mesh stencil *)
Section MeshStencil.
  Variables (boxes : list fbox) (c kd : double) (mesh : list nat).
  Hypothesis Gb : Forall good_box boxes.
  Hypothesis Gc : good_cutoff c.
  Hypothesis Fk : fin kd.
  Hypothesis Bk : pw (-400) <= val kd <= pw 399.
  Hypothesis Lm : length mesh = length boxes.
  Notation lim := (fopp kd, kd).
  Notation limits := (repeat (fopp kd, kd) (length mesh)).
  Lemma kd_pos : 0 < val kd.
  Proof. pose proof (pw_pos (-400)). lra. Qed.
  Lemma lim_size : fbox_size lim = 2 * val kd /\ val (fopp kd) = - val kd /\ fin (fopp kd).
  Proof. assert (V : val (fopp kd) = - val kd) by apply B2R_Bopp. assert (F : fin (fopp kd)) by (unfold fin, fopp; rewrite is_finite_Bopp; exact Fk).
    split; auto. unfold fbox_size. cbn [fst snd]. pose proof kd_pos as P. assert (E4 : pw 400 = 2 * pw 399) by (change 2 with (pw 1); rewrite pw_mul; reflexivity).
    assert (B : Rabs (val kd - val (fopp kd)) <= pw 400) by (rewrite V; apply Rabs_le; lra). destruct (fsub_val kd (fopp kd) 400 ltac:(lia) Fk F B) as (_ & E). rewrite E, V. replace (val kd - - val kd) with (val kd * 2) by ring.
    rewrite rnd_id; [lra|]. change 2 with (pw 1). pose proof (val_format kd) as Fm. rewrite FE_flt in *. apply mult_bpow_pos_exact_FLT; auto. lia. Qed.
  Lemma lim_good : good_box lim.
  Proof. destruct lim_size as (S & V & F). pose proof kd_pos as P. unfold good_box. cbn [fst snd]. assert (E4 : pw 400 = 2 * pw 399) by (change 2 with (pw 1); rewrite pw_mul; reflexivity). rewrite S, V. repeat split; auto; try lra; rewrite ?Rabs_Ropp; rewrite Rabs_pos_eq; lra. Qed.
  Lemma limits_good : Forall good_box limits.
  Proof. apply Forall_forall. intros b Hb. apply repeat_spec in Hb. subst. apply lim_good. Qed.
  Lemma lim_resolution : resolution lim = 2049 * pw (-51) * val kd.
  Proof. destruct lim_size as (S & V & _). unfold resolution. cbn [fst]. rewrite S, V, Rabs_Ropp, Rabs_pos_eq by (pose proof kd_pos; lra). change (pw 10) with 1024. ring. Qed.
  (** mesh sizes from 1 to 2^36 *)
  Hypothesis Hm : Forall (fun m => (1 <= m)%nat /\ INR m <= pw 36) mesh.
  Lemma fine_enough m : (1 <= m)%nat -> INR m <= pw 36 -> 2 * INR m * resolution lim <= fbox_size lim / 2.
  Proof. intros H1 H2. rewrite lim_resolution. destruct lim_size as (Sz & _). rewrite Sz. pose proof kd_pos as P. assert (INR m * (4098 * pw (-51)) <= pw 36 * (pw 13 * pw (-51))).
    { apply (le_INR 1) in H1. change (INR 1) with 1 in H1. pose proof (pw_pos (-51)). apply Rmult_le_compat; try lra. change (pw 13) with 8192. lra. }
    rewrite !pw_mul in H. change (pw (36 + (13 + -51))) with (/ 4) in H. nra. Qed.
  Lemma limits_resolved : resolved_mesh limits mesh.
  Proof. unfold resolved_mesh. assert (G : forall l, Forall (fun m => (1 <= m)%nat /\ INR m <= pw 36) l -> Forall2 (fun b m => (1 <= m)%nat /\ 2 * INR m * resolution b <= fbox_size b) (repeat lim (length l)) l); [|apply G; auto].
    intros l F. induction F as [|m l (H1 & H2) F IH]; cbn [length repeat]; constructor; auto. split; auto. pose proof (fine_enough m H1 H2). destruct lim_size as (Sz & _). pose proof kd_pos. lra. Qed.
  Lemma limits_nth k b : nth_error limits k = Some b -> b = lim.
  Proof. intros E. apply nth_error_In in E. apply repeat_spec in E. auto. Qed.
  Notation ds := (fsimplex_distances limits mesh).
  Notation point := (gpoint false limits mesh).
  Lemma stencil_vertex idx w x : Forall2 lt idx mesh -> In w (fmesh_simplex ds (point idx)) -> In x w -> fin x /\ Rabs (val x) <= 4 * val kd.
  Proof. intros F Hw Hx. destruct (simplex_vertex false limits mesh limits_resolved idx w F Hw) as (L & H). apply In_nth_error in Hx as (k & Ek).
    assert (Hk : (k < length limits)%nat) by (rewrite <- L; apply nth_error_Some; congruence). destruct (at_dim limits mesh limits_good limits_resolved k Hk) as (b & m & Eb & Em & G1 & M1 & M2). destruct (idx_nth mesh idx k m F Em) as (i & Ei & Hi).
    destruct (coord_val b m false G1 M1 M2 i Hi) as (Fx & _). destruct (coord_inside b m false G1 M1 M2 i Hi) as ((L1 & L2) & _). destruct (plus_dist b m false G1 M1 M2 i Hi) as (Fd & Ed & _). destruct (plus_zero (coord b m false i) Fx) as (Vz & Fz).
    pose proof (limits_nth k b Eb) as ->. cbn [fst snd] in *. destruct lim_size as (Sz & V & _). rewrite V in *. pose proof kd_pos as P. pose proof (mp m M1) as Pm. rewrite Sz in *. rewrite lim_resolution in *. 
    assert (Q : 0 < 2 * val kd / (2 * INR m) <= val kd). { split; [apply Rdiv_lt_0_compat; lra|]. apply (Rmult_le_reg_r (2 * INR m)); [lra|]. replace (2 * val kd / (2 * INR m) * (2 * INR m)) with (2 * val kd) by (field; lra). nra. }
    assert (R1 : 0 < 2049 * pw (-51) * val kd <= val kd). { pose proof (pw_pos (-51)). assert (2049 * pw (-51) <= 1). { assert (pw (-51) <= pw (-12)) by (apply pw_le; lia). change (pw (-12)) with (/ 4096) in *. lra. } split; nra. }
    rewrite abs_le in Ed. destruct H as [H|(j & _ & H)]; rewrite (H k _ m i Eb Em Ei) in Ek; apply some_inj in Ek; subst x; cbn [fst snd].
    - split; auto. apply Rabs_le. lra.
    - destruct (k =? j)%nat; (split; [auto|apply Rabs_le; lra]). Qed.
  Hypothesis Hs : Forall2 (fun b m => 32 * INR m * resolution b <= val c * val kd <= 32 * fbox_size b) boxes mesh.
  Lemma mesh_stencil_resolved : exists st, fget_mesh_stencil mesh kd = Ok st /\ resolved_stencil boxes (fscale_stencil c st) /\
    (forall idx, Forall2 lt idx mesh -> exists v s, mesh_point false limits mesh idx v /\ mesh_simplex_at limits mesh v s /\ (In s st \/ at_origin v)) /\
    (forall s, In s st -> exists idx v, Forall2 lt idx mesh /\ mesh_point false limits mesh idx v /\ mesh_simplex_at limits mesh v s /\ ~ at_origin v).
  Proof. pose proof limits_resolved as LR. pose proof limits_good as LG. assert (Ll : length limits = length mesh) by apply repeat_length.
    assert (FC : forall idx, Forall2 lt idx mesh -> fallclose0 (point idx) = true <-> at_origin (point idx)).
    { intros idx F. unfold fallclose0, at_origin. rewrite forallb_forall, Forall_forall.
      assert (E : forall x, In x (point idx) -> Bleb (Babs x) tolerance = true <-> Rabs (B2R x) <= B2R tolerance).
      { intros x Hx. apply In_nth_error in Hx as (k & Ek). assert (Hk : (k < length limits)%nat) by (rewrite <- (point_length false limits mesh LR idx F); apply nth_error_Some; congruence).
        destruct (at_dim limits mesh LG LR k Hk) as (b & m & Eb & Em & _). destruct (idx_nth mesh idx k m F Em) as (i & Ei & Hi). destruct (point_is false limits mesh LG LR idx F) as (_ & PI). destruct (PI k b m i Eb Em Ei) as (_ & x' & Ex & Fx & _). rewrite Ek in Ex. injection Ex as <-.
        rewrite Bleb_correct; [|rewrite is_finite_Babs; exact Fx|reflexivity]. rewrite B2R_Babs. split; [|apply Rle_bool_true]. destruct (Rle_bool_spec (Rabs (B2R x)) (B2R tolerance)); [auto|discriminate]. }
      split; intros H x Hx; [apply E|apply E]; auto. }
    assert (MF : forall v, In v (filter (fun v => negb (fallclose0 v)) (fmesh_vertices limits mesh false)) <-> exists idx, Forall2 lt idx mesh /\ v = point idx /\ ~ at_origin v).
    { intros v. rewrite filter_In, in_fmesh_vertices by (rewrite Ll; reflexivity). split.
      - intros ((idx & F & ->) & Nf). exists idx. split; auto. split; auto. intros O. apply FC in O; auto. rewrite O in Nf. discriminate.
      - intros (idx & F & -> & O). split; [eauto|]. destruct (fallclose0 (point idx)) eqn:Q; auto. exfalso. apply O. apply FC; auto. }
    eexists. split; [unfold fget_mesh_stencil, fgenerate_mesh_simplices; rewrite Ll, Nat.eqb_refl; reflexivity|]. split; [|split].
    - pose proof kd_pos as Pk. pose proof (c_pos c Gc) as Pc. apply (scaled_resolved boxes c _ (4 * val kd) (fun k => val kd / (4 * INR (nth k mesh 1%nat)))); auto.
      + assert (pw (-500) <= pw (-400)) by (apply pw_le; lia). assert (E : 4 * pw 399 <= pw 500). { replace (4 * pw 399) with (pw 401) by (change 4 with (pw 2); rewrite pw_mul; reflexivity). apply pw_le. lia. } lra.
      + intros s v Hs' Hv. apply in_map_iff in Hs' as (p & <- & Hp). apply MF in Hp as (idx & F & -> & _). split; [destruct (simplex_vertex false limits mesh LR idx v F Hv) as (L & _); rewrite L, Ll; auto|]. intros x Hx. apply (stencil_vertex idx v x); auto.
      + intros i j s t N Es Et. rewrite nth_error_map in Es, Et. destruct (nth_error (filter _ _) i) as [p|] eqn:Ep; [|discriminate]. destruct (nth_error (filter _ _) j) as [q|] eqn:Eq; [|discriminate]. cbn in Es, Et. injection Es as <-. injection Et as <-.
        assert (Npq : p <> q). { intros Epq. subst q. apply N. pose proof (NoDup_filter (fun v => negb (fallclose0 v)) (vertices_nodup false limits mesh LG LR)) as ND. rewrite NoDup_nth_error in ND. apply ND; [apply nth_error_Some; rewrite Ep; discriminate|rewrite Ep, Eq; reflexivity]. }
        destruct (proj1 (MF p) (nth_error_In _ _ Ep)) as (idx & F & Pp & _). destruct (proj1 (MF q) (nth_error_In _ _ Eq)) as (idx' & F' & Pq & _). subst p q.
        assert (Ni : idx <> idx') by congruence. exists (base (point idx)). split; [apply first_vertex; auto|]. intros w Hw.
        destruct (vertex_apart false limits mesh LG LR idx idx' w F F' Ni Hw) as (k & b & m & x & y & Eb & Em & Ex & Ey & A). exists k, x, y. split; [rewrite <- Lm; apply nth_error_Some; congruence|]. split; auto. split; auto.
        rewrite (nth_error_nth _ _ _ Em). assert (Hm1 : (1 <= m)%nat /\ INR m <= pw 36) by (rewrite Forall_forall in Hm; apply Hm; eapply nth_error_In; eauto). destruct Hm1 as (M1 & M2). pose proof (fine_enough m M1 M2) as Fe. pose proof (mp m M1) as Pm.
        apply limits_nth in Eb. subst b. destruct lim_size as (Sz & _). rewrite Sz in *. eapply Rle_trans; [|exact A].
        replace (2 * val kd / (2 * INR m)) with (val kd / INR m) by (field; lra). replace (val kd / (4 * INR m)) with (val kd / INR m / 4) by (field; lra).
        assert (0 < val kd / INR m) by (apply Rdiv_lt_0_compat; lra). assert (resolution lim <= val kd / INR m / 2); [|lra]. apply (Rmult_le_reg_r (INR m)); [lra|]. replace (val kd / INR m / 2 * INR m) with (val kd / 2) by (field; lra). lra.
      + intros k b Eb. destruct (nth_error mesh k) as [m|] eqn:Em; [|apply nth_error_None in Em; rewrite Lm in Em; apply nth_error_None in Em; congruence]. destruct (F2_nth _ _ _ k b m Hs Eb Em) as (H1 & H2). rewrite (nth_error_nth _ _ _ Em).
        assert (Hm1 : (1 <= m)%nat /\ INR m <= pw 36) by (rewrite Forall_forall in Hm; apply Hm; eapply nth_error_In; eauto). destruct Hm1 as (M1 & M2). pose proof (mp m M1) as Pm. rewrite Forall_forall in Gb. pose proof (Gb b (nth_error_In _ _ Eb)) as G1. pose proof (res_gt b G1) as Rg.
        assert (P1 : 0 < val kd / (4 * INR m)) by (apply Rdiv_lt_0_compat; lra).
        split; [|split; [lra|split]].
        * apply (Rmult_le_reg_r (8 * INR m)); [lra|]. replace (val kd / (4 * INR m) * val c / 2 * (8 * INR m)) with (val c * val kd) by (field; lra). nra.
        * assert (32 * resolution b <= 32 * INR m * resolution b) by nra. lra.
        * apply (Rmult_lt_reg_r (4 * INR m)); [lra|]. replace (val kd / (4 * INR m) * (4 * INR m)) with (val kd * 1) by (field; lra). replace (16 * pw (-53) * (4 * val kd) * (4 * INR m)) with (val kd * (256 * pw (-53) * INR m)) by ring. apply Rmult_lt_compat_l; auto.
          apply Rle_lt_trans with (pw 8 * pw (-53) * pw 36); [change (pw 8) with 256; apply Rmult_le_compat_l; [pose proof (pw_pos (-53)); lra|auto]|]. rewrite !pw_mul. change 1 with (pw 0). apply bpow_lt. lia.
    - intros idx F. exists (point idx), (fmesh_simplex ds (point idx)). split; [apply point_is; auto|]. split; [apply simplex_is; auto|]. destruct (fallclose0 (point idx)) eqn:Q; [right; apply FC; auto|left]. apply in_map. apply MF. exists idx. split; auto. split; auto. intros O. apply FC in O; auto. congruence.
    - intros s Hs'. apply in_map_iff in Hs' as (p & <- & Hp). apply MF in Hp as (idx & F & -> & O). exists idx, (point idx). split; auto. split; [apply point_is; auto|]. split; [apply simplex_is; auto|auto]. Qed.
End MeshStencil.
