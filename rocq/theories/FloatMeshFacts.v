(** The mesh in double precision: its simplices and their vertices. *)
From Coq Require Import ZArith Reals Psatz List Permutation.
From Flocq Require Import Core BinarySingleNaN Relative.
From Verif Require Import Base BaseFacts CoordSys CellListFacts Queue QueueFacts Float FloatFacts FloatVector FloatVectorFacts FloatMin FloatCell SpecFloatCell FloatCellNum FloatCellFacts FloatController SpecFloatSearch FloatStencil Mesh SpecMesh MeshFacts FloatMesh SpecFloatMesh FloatMeshNum.
From Coq Require Import Lra.
Import ListNotations.
Open Scope list_scope.
Open Scope R_scope.

Lemma some_inj {A} (x y : A) : Some x = Some y -> x = y.
Proof. congruence. Qed.
(** ** The simplex at a vertex *)
Definition base (v : fpoint) : fpoint := map (fun x => fadd x zero) v.
Fixpoint fdisp (v ds : fpoint) : fsimplex :=
  match v, ds with
  | x :: v', d :: ds' => (fadd x d :: base v') :: map (cons (fadd x zero)) (fdisp v' ds')
  | _, _ => []
  end.
Lemma map2_repeat v : map2 fadd v (repeat zero (length v)) = base v.
Proof. induction v as [|x v IH]; cbn [length repeat map2 base map]; auto. f_equal. exact IH. Qed.
Lemma rows_eq v ds : length v = length ds ->
  map (map2 fadd v) (map (fun i => map (fun j => if (i =? j)%nat then nth i ds zero else zero) (seq 0 (length ds))) (seq 0 (length ds))) = fdisp v ds.
Proof. revert ds. induction v as [|x v IH]; intros [|d ds] L; cbn [length] in L; try discriminate; auto.
  cbn [length seq map fdisp]. f_equal.
  - cbn [Nat.eqb nth map2]. f_equal. rewrite <- seq_shift, map_map. cbn [Nat.eqb].
    replace (map (fun _ : nat => zero) (seq 0 (length ds))) with (repeat zero (length v)); [apply map2_repeat|].
    replace (length v) with (length ds) by lia. generalize (length ds) 0%nat. clear. intros n. induction n as [|n IH]; intros a; cbn; congruence.
  - rewrite <- IH by lia. rewrite <- seq_shift, !map_map. apply map_ext. intros i. cbn [Nat.eqb nth map2]. f_equal. f_equal. rewrite map_map. apply map_ext. intros j. reflexivity. Qed.
Lemma fmesh_simplex_eq v ds : length v = length ds -> fmesh_simplex ds v = base v :: fdisp v ds.
Proof. intros L. unfold fmesh_simplex, fsimplex_stencil. cbn [map]. rewrite rows_eq by auto. f_equal. rewrite <- L. apply map2_repeat. Qed.
Lemma fdisp_length v ds : length v = length ds -> length (fdisp v ds) = length ds.
Proof. revert ds. induction v as [|x v IH]; intros [|d ds] L; cbn in *; try discriminate; auto. rewrite map_length, IH; lia. Qed.
Lemma base_length v : length (base v) = length v.
Proof. apply map_length. Qed.
Lemma base_nth v j : nth_error (base v) j = option_map (fun x => fadd x zero) (nth_error v j).
Proof. apply nth_error_map. Qed.
(** coordinate [j] of the vertex displaced in direction [k] *)
Lemma fdisp_nth : forall v ds k w j x d, nth_error (fdisp v ds) k = Some w -> nth_error v j = Some x -> nth_error ds j = Some d ->
  nth_error w j = Some (if (j =? k)%nat then fadd x d else fadd x zero).
Proof. induction v as [|y v IH]; intros [|e ds] k w j x d Ek Ej Ed; cbn [fdisp] in Ek; try (destruct k; discriminate); try (destruct j; discriminate).
  destruct k as [|k]; cbn [nth_error] in Ek.
  - injection Ek as <-. destruct j as [|j]; cbn [nth_error Nat.eqb] in *; [congruence|]. rewrite base_nth, Ej. reflexivity.
  - rewrite nth_error_map in Ek. destruct (nth_error (fdisp v ds) k) as [w'|] eqn:Ew; [|discriminate]. injection Ek as <-. destruct j as [|j]; cbn [nth_error Nat.eqb] in *; [congruence|]. eapply IH; eauto. Qed.
Lemma fdisp_len : forall v ds k w, length v = length ds -> nth_error (fdisp v ds) k = Some w -> length w = length ds.
Proof. induction v as [|y v IH]; intros [|e ds] k w L E; cbn [fdisp length] in *; try discriminate; [destruct k; discriminate|]. destruct k as [|k]; cbn [nth_error] in E.
  - injection E as <-. cbn. rewrite base_length. lia.
  - rewrite nth_error_map in E. destruct (nth_error (fdisp v ds) k) as [w'|] eqn:Ew; [|discriminate]. injection E as <-. cbn. f_equal. apply (IH ds k); auto. Qed.

(** ** Mesh points *)
Fixpoint gpoint (per : bool) (boxes : list fbox) (mesh idx : list nat) : fpoint :=
  match boxes, mesh, idx with
  | b :: boxes', m :: mesh', i :: idx' => coord b m per i :: gpoint per boxes' mesh' idx'
  | _, _, _ => []
  end.
Lemma gpoint_nth per : forall boxes mesh idx k b m i, nth_error boxes k = Some b -> nth_error mesh k = Some m -> nth_error idx k = Some i -> nth_error (gpoint per boxes mesh idx) k = Some (coord b m per i).
Proof. induction boxes as [|b0 boxes IH]; intros mesh idx [|k] b m i Eb Em Ei; try discriminate; destruct mesh, idx; try discriminate; cbn in *; [congruence|auto]. Qed.
Lemma gpoint_length per : forall boxes mesh idx, length mesh = length boxes -> length idx = length mesh -> length (gpoint per boxes mesh idx) = length boxes.
Proof. induction boxes as [|b boxes IH]; intros [|m mesh] [|i idx] L1 L2; cbn in *; try discriminate; auto. Qed.
Lemma in_fmesh_vertices per : forall boxes mesh v, length mesh = length boxes ->
  (In v (fmesh_vertices boxes mesh per) <-> exists idx, Forall2 lt idx mesh /\ v = gpoint per boxes mesh idx).
Proof. intros boxes mesh v L. unfold fmesh_vertices. rewrite in_product. revert mesh v L. induction boxes as [|b boxes IH]; intros [|m mesh] v L; cbn [length] in L; try discriminate; cbn [map2].
  - split; [intros H; inversion H; subst; exists []; split; auto; constructor|]. intros (idx & F & ->). inversion F. constructor.
  - split.
    + intros H. inversion H as [|x ? v' ? Hx Hv]; subst. apply IH in Hv as (idx & F & ->); [|lia]. rewrite coords_eq in Hx. apply in_map_iff in Hx as (i & <- & Hi). apply in_seq in Hi. exists (i :: idx). split; [constructor; auto; lia|reflexivity].
    + intros (idx & F & ->). inversion F as [|i ? idx' ? Hi F']; subst. cbn [gpoint]. constructor; [|apply IH; eauto; lia]. rewrite coords_eq. apply in_map. apply in_seq. lia. Qed.

Section Mesh.
  Variables (per : bool) (boxes : list fbox) (mesh : list nat).
  Hypothesis Gb : Forall good_box boxes.
  Hypothesis Rm : resolved_mesh boxes mesh.
  Notation ds := (fsimplex_distances boxes mesh).
  Notation point := (gpoint per boxes mesh).

  Lemma dims : length mesh = length boxes.
  Proof. symmetry. apply (F2_length _ _ _ Rm). Qed.
  Lemma ds_length : length ds = length boxes.
  Proof. unfold fsimplex_distances. pose proof dims as L. clear -L. revert mesh L. induction boxes as [|b bs IH]; intros [|m ms] L; cbn in *; try discriminate; auto. Qed.
  Lemma ds_nth k b m : nth_error boxes k = Some b -> nth_error mesh k = Some m -> nth_error ds k = Some (fdiv (fsub (snd b) (fst b)) (of_int (2 * Z.of_nat m))).
  Proof. intros Eb Em. unfold fsimplex_distances. rewrite nth_map2, Eb, Em. reflexivity. Qed.
  Lemma at_dim k : (k < length boxes)%nat -> exists b m, nth_error boxes k = Some b /\ nth_error mesh k = Some m /\ good_box b /\ (1 <= m)%nat /\ 2 * INR m * resolution b <= fbox_size b.
  Proof. intros L. destruct (nth_error boxes k) as [b|] eqn:Eb; [|apply nth_error_None in Eb; lia]. destruct (nth_error mesh k) as [m|] eqn:Em; [|apply nth_error_None in Em; rewrite dims in Em; lia].
    exists b, m. split; auto. split; auto. split; [rewrite Forall_forall in Gb; apply Gb; eapply nth_error_In; eauto|]. exact (F2_nth _ _ _ k b m Rm Eb Em). Qed.
  Lemma idx_nth idx k m : Forall2 lt idx mesh -> nth_error mesh k = Some m -> exists i, nth_error idx k = Some i /\ (i < m)%nat.
  Proof. intros F E. destruct (nth_error idx k) as [i|] eqn:Ei; [exists i; split; auto; exact (F2_nth _ _ _ k i m F Ei E)|]. apply nth_error_None in Ei. rewrite (F2_length _ _ _ F) in Ei. apply nth_error_None in Ei. congruence. Qed.
  Lemma point_length idx : Forall2 lt idx mesh -> length (point idx) = length boxes.
  Proof. intros F. apply gpoint_length; [apply dims|apply (F2_length _ _ _ F)]. Qed.

  (** a vertex of the simplex at [v] *)
  Lemma simplex_vertex idx w : Forall2 lt idx mesh -> In w (fmesh_simplex ds (point idx)) ->
    length w = length boxes /\
    ((forall k b m i, nth_error boxes k = Some b -> nth_error mesh k = Some m -> nth_error idx k = Some i -> nth_error w k = Some (fadd (coord b m per i) zero)) \/
     exists j, (j < length boxes)%nat /\ forall k b m i, nth_error boxes k = Some b -> nth_error mesh k = Some m -> nth_error idx k = Some i ->
       nth_error w k = Some (fadd (coord b m per i) (if (k =? j)%nat then fdiv (fsub (snd b) (fst b)) (of_int (2 * Z.of_nat m)) else zero))).
  Proof. intros F Hw. pose proof (point_length idx F) as Lp. rewrite fmesh_simplex_eq in Hw by (rewrite Lp, ds_length; auto). destruct Hw as [<-|Hw].
    - split; [rewrite base_length; auto|]. left. intros k b m i Eb Em Ei. rewrite base_nth, (gpoint_nth per _ _ _ _ _ _ _ Eb Em Ei). reflexivity.
    - apply In_nth_error in Hw as (j & Ej). assert (Hj : (j < length boxes)%nat). { rewrite <- ds_length. rewrite <- (fdisp_length (point idx) ds) by (rewrite Lp, ds_length; auto). apply nth_error_Some. congruence. }
      split; [rewrite (fdisp_len _ _ _ _ ltac:(rewrite Lp, ds_length; auto) Ej); apply ds_length|]. right. exists j. split; auto. intros k b m i Eb Em Ei.
      rewrite (fdisp_nth _ _ _ _ _ _ _ Ej (gpoint_nth per _ _ _ _ _ _ _ Eb Em Ei) (ds_nth k b m Eb Em)). destruct (k =? j)%nat; reflexivity. Qed.
  Lemma vertex_good idx w : Forall2 lt idx mesh -> In w (fmesh_simplex ds (point idx)) -> good_position boxes w.
  Proof. intros F Hw. destruct (simplex_vertex idx w F Hw) as (L & H).
    assert (G : forall k b y, nth_error boxes k = Some b -> nth_error w k = Some y -> good_coord b y).
    { intros k b y Eb Ey. assert (Hk : (k < length boxes)%nat) by (apply nth_error_Some; congruence). destruct (at_dim k Hk) as (b' & m & Eb' & Em & Gb1 & Hm & Hf). rewrite Eb in Eb'. injection Eb' as <-. destruct (idx_nth idx k m F Em) as (i & Ei & Hi).
      destruct (coord_val b m per Gb1 Hm Hf i Hi) as (Fx & _). destruct (coord_inside b m per Gb1 Hm Hf i Hi) as ((L1 & L2) & _). destruct (plus_dist b m per Gb1 Hm Hf i Hi) as (Fd & Ed & _). destruct (plus_zero (coord b m per i) Fx) as (Vz & Fz).
      pose proof (hi_near b m per Gb1 Hm) as Hn. pose proof (res_gt b Gb1) as Rg. pose proof (mp m Hm) as Pm. pose proof (sp b Gb1) as Ps. rewrite abs_le in Hn, Ed.
      assert (Q : 0 < fbox_size b / (2 * INR m) <= fbox_size b / 2). { split; [apply Rdiv_lt_0_compat; lra|]. apply (Rmult_le_reg_r (2 * INR m)); [lra|]. unfold Rdiv. rewrite Rmult_assoc, Rinv_l by lra. nra. }
      assert (Rs : resolution b <= fbox_size b) by nra. split.
      - destruct H as [H|(j & _ & H)]; rewrite (H k b m i Eb Em Ei) in Ey; apply some_inj in Ey; rewrite <- Ey; auto. destruct (k =? j)%nat; auto.
      - change (pw 10) with 1024. apply Rabs_le. destruct H as [H|(j & _ & H)]; rewrite (H k b m i Eb Em Ei) in Ey; apply some_inj in Ey; rewrite <- Ey; [lra|]. destruct (k =? j)%nat; lra. }
    clear -L G. unfold good_position. revert w L G. generalize boxes as bs. induction bs as [|b bs IH]; intros [|y w] L G; cbn in L; try discriminate; constructor.
    - apply (G 0%nat); reflexivity.
    - apply IH; [lia|]. intros k. apply (G (Datatypes.S k)). Qed.
  Lemma differ_idx (idx idx' : list nat) : length idx = length boxes -> length idx' = length boxes -> idx <> idx' -> exists k i i', (k < length boxes)%nat /\ nth_error idx k = Some i /\ nth_error idx' k = Some i' /\ i <> i'.
  Proof. generalize (length boxes) as n. intros n. revert n idx'. induction idx as [|i idx IH]; intros n [|i' idx'] L L' N; cbn in *; try congruence; try lia. destruct n as [|n]; [lia|].
    destruct (Nat.eq_dec i i') as [->|Ni].
    - destruct (IH n idx') as (k & a & a' & Hk & H); try lia; [congruence|]. exists (Datatypes.S k), a, a'. split; [lia|exact H].
    - exists 0%nat, i, i'. split; [lia|]. cbn. auto. Qed.
  (** two simplices: the mesh point of one is away from every vertex of the other *)
  Lemma vertex_apart idx idx' w : Forall2 lt idx mesh -> Forall2 lt idx' mesh -> idx <> idx' -> In w (fmesh_simplex ds (point idx')) ->
    exists k b m x y, nth_error boxes k = Some b /\ nth_error mesh k = Some m /\ nth_error (base (point idx)) k = Some x /\ nth_error w k = Some y /\
      fbox_size b / (2 * INR m) - 3 * resolution b / 4 <= Rabs (B2R x - B2R y).
  Proof. intros F F' N Hw. destruct (simplex_vertex idx' w F' Hw) as (_ & [H|(j & Hj & H)]).
    - destruct (differ_idx idx idx') as (k & i & i' & Hk & Ei & Ei' & Ni); auto; try (rewrite <- dims; eapply F2_length; eassumption).
      destruct (at_dim k Hk) as (b & m & Eb & Em & Gb1 & Hm & Hf). pose proof (F2_nth _ _ _ k i m F Ei Em) as Hi. pose proof (F2_nth _ _ _ k i' m F' Ei' Em) as Hi'. cbv beta in Hi, Hi'.
      exists k, b, m, (fadd (coord b m per i) zero), (fadd (coord b m per i') zero). split; auto. split; auto. split; [rewrite base_nth, (gpoint_nth per _ _ _ _ _ _ _ Eb Em Ei); reflexivity|]. split; [apply (H k b m i' Eb Em Ei')|].
      destruct (coord_val b m per Gb1 Hm Hf i Hi) as (Fx & _). destruct (coord_val b m per Gb1 Hm Hf i' Hi') as (Fy & _). rewrite (proj1 (plus_zero _ Fx)), (proj1 (plus_zero _ Fy)).
      pose proof (points_apart b m per Gb1 Hm Hf i i' Hi Hi' Ni) as A. pose proof (res_gt b Gb1). pose proof (mp m Hm). pose proof (sp b Gb1). assert (fbox_size b / INR m = 2 * (fbox_size b / (2 * INR m))) by (field; lra). assert (0 < fbox_size b / (2 * INR m)) by (apply Rdiv_lt_0_compat; lra). lra.
    - destruct (at_dim j Hj) as (b & m & Eb & Em & Gb1 & Hm & Hf). destruct (idx_nth idx j m F Em) as (i & Ei & Hi). destruct (idx_nth idx' j m F' Em) as (i' & Ei' & Hi').
      exists j, b, m, (fadd (coord b m per i) zero), (fadd (coord b m per i') (fdiv (fsub (snd b) (fst b)) (of_int (2 * Z.of_nat m)))). split; auto. split; auto. split; [rewrite base_nth, (gpoint_nth per _ _ _ _ _ _ _ Eb Em Ei); reflexivity|]. split; [rewrite (H j b m i' Eb Em Ei'), Nat.eqb_refl; reflexivity|].
      destruct (coord_val b m per Gb1 Hm Hf i Hi) as (Fx & _). rewrite (proj1 (plus_zero _ Fx)). apply (displaced_apart b m per Gb1 Hm Hf i i' Hi Hi'). Qed.
  Lemma first_vertex idx : Forall2 lt idx mesh -> In (base (point idx)) (fmesh_simplex ds (point idx)).
  Proof. intros F. rewrite fmesh_simplex_eq by (rewrite ds_length; apply point_length; auto). left. reflexivity. Qed.
  Lemma norm_inj idx idx' : Forall2 lt idx mesh -> Forall2 lt idx' mesh -> norm_fsimplex (fmesh_simplex ds (point idx)) = norm_fsimplex (fmesh_simplex ds (point idx')) -> idx = idx'.
  Proof. intros F F' E. destruct (list_eq_dec Nat.eq_dec idx idx') as [|N]; auto. exfalso. destruct (norm_simplex_members _ _ E _ (first_vertex idx F)) as (w & Hw & Ew).
    destruct (vertex_apart idx idx' w F F' N Hw) as (k & b & m & x & y & Eb & Em & Ex & Ey & A). apply (f_equal (fun l => nth_error l k)) in Ew. rewrite !nth_error_map, Ex, Ey in Ew. cbn in Ew. injection Ew as Ew. apply drop_sign_inj in Ew.
    assert (Hk : (k < length boxes)%nat) by (apply nth_error_Some; congruence). destruct (at_dim k Hk) as (b' & m' & Eb' & Em' & Gb1 & Hm & Hf). rewrite Eb in Eb'. injection Eb' as <-. rewrite Em in Em'. injection Em' as <-.
    rewrite Ew in A. rewrite Rminus_eq_0, Rabs_R0 in A. pose proof (res_gt b Gb1). destruct (spacing b m per Gb1 Hm Hf) as (_ & Sp). pose proof (mp m Hm). assert (fbox_size b / INR m = 2 * (fbox_size b / (2 * INR m))) by (field; lra). lra. Qed.
  Lemma coords_nodup k b m : nth_error boxes k = Some b -> nth_error mesh k = Some m -> NoDup (flinspace (fst b) (snd b) m (negb per)).
  Proof. intros Eb Em. assert (Hk : (k < length boxes)%nat) by (apply nth_error_Some; congruence). destruct (at_dim k Hk) as (b' & m' & Eb' & Em' & Gb1 & Hm & Hf). rewrite Eb in Eb'. injection Eb' as <-. rewrite Em in Em'. injection Em' as <-.
    rewrite coords_eq. pose proof (res_gt b Gb1) as Rg. assert (C : forall i j, (i < m)%nat -> (j < m)%nat -> coord b m per i = coord b m per j -> i = j).
    { intros i j Hi Hj E. destruct (Nat.lt_trichotomy i j) as [L|[L|L]]; auto; exfalso; [pose proof (coord_increasing b m per Gb1 Hm Hf i j L Hj)|pose proof (coord_increasing b m per Gb1 Hm Hf j i L Hi)]; rewrite E in *; lra. }
    clear -C. assert (G : forall n a, (a + n <= m)%nat -> NoDup (map (coord b m per) (seq a n))).
    { induction n as [|n IH]; intros a L; cbn; constructor; [|apply IH; lia]. intros H. apply in_map_iff in H as (j & E & Hj). apply in_seq in Hj. apply C in E; lia. }
    apply G. lia. Qed.
  Lemma vertices_nodup : NoDup (fmesh_vertices boxes mesh per).
  Proof. unfold fmesh_vertices. apply NoDup_product. pose proof coords_nodup as C. pose proof dims as L. clear -C L. revert mesh L C. generalize boxes as bs. induction bs as [|b bs IH]; intros [|m ms] L C; cbn in *; try discriminate; constructor.
    - apply (C 0%nat); reflexivity.
    - apply IH; [lia|]. intros k. apply (C (Datatypes.S k)). Qed.
  Lemma simplices_nodup : NoDup (map norm_fsimplex (map (fmesh_simplex ds) (fmesh_vertices boxes mesh per))).
  Proof. rewrite map_map. pose proof vertices_nodup as N. assert (I : forall v w, In v (fmesh_vertices boxes mesh per) -> In w (fmesh_vertices boxes mesh per) -> norm_fsimplex (fmesh_simplex ds v) = norm_fsimplex (fmesh_simplex ds w) -> v = w).
    { intros v w Hv Hw E. apply in_fmesh_vertices in Hv as (i & Fi & ->); [|apply dims]. apply in_fmesh_vertices in Hw as (j & Fj & ->); [|apply dims]. apply norm_inj in E; auto. congruence. }
    revert N I. generalize (fmesh_vertices boxes mesh per) as l. induction l as [|v l IH]; intros N I; cbn; constructor; inversion N as [|? ? Nv Nl]; subst.
    - intros H. apply in_map_iff in H as (w & E & Hw). apply I in E; cbn; auto. subst. auto.
    - apply IH; auto. intros v' w Hv Hw. apply I; cbn; auto. Qed.
  Lemma simplices_good : Forall (Forall (good_position boxes)) (map (fmesh_simplex ds) (fmesh_vertices boxes mesh per)).
  Proof. apply Forall_forall. intros s Hs. apply in_map_iff in Hs as (v & <- & Hv). apply in_fmesh_vertices in Hv as (i & Fi & ->); [|apply dims]. apply Forall_forall. intros w Hw. eapply vertex_good; eauto. Qed.
  Lemma vertices_count : length (fmesh_vertices boxes mesh per) = mesh_count mesh.
  Proof. unfold fmesh_vertices, mesh_count. rewrite product_length. f_equal. pose proof dims as L. clear -L. revert mesh L. induction boxes as [|b bs IH]; intros [|m ms] L; cbn in *; try discriminate; auto. f_equal; [|apply IH; lia]. unfold flinspace. rewrite map_length, seq_length. reflexivity. Qed.

  (** what the simplices are *)
  Lemma point_is idx : Forall2 lt idx mesh -> mesh_point per boxes mesh idx (point idx).
  Proof. intros F. split; [rewrite <- dims; apply (F2_length _ _ _ F)|]. intros k b m i Eb Em Ei. pose proof (F2_nth _ _ _ k i m F Ei Em) as Hi. cbv beta in Hi. split; auto.
    assert (Hk : (k < length boxes)%nat) by (apply nth_error_Some; congruence). destruct (at_dim k Hk) as (b' & m' & Eb' & Em' & Gb1 & Hm & Hf). rewrite Eb in Eb'. injection Eb' as <-. rewrite Em in Em'. injection Em' as <-.
    exists (coord b m per i). split; [apply gpoint_nth; auto|]. destruct (coord_val b m per Gb1 Hm Hf i Hi) as (Fx & E). split; auto. split; auto. apply (coord_inside b m per Gb1 Hm Hf i Hi). Qed.
  Lemma simplex_is idx : Forall2 lt idx mesh -> mesh_simplex_at boxes mesh (point idx) (fmesh_simplex ds (point idx)).
  Proof. intros F. pose proof (point_length idx F) as Lp. rewrite fmesh_simplex_eq by (rewrite Lp, ds_length; auto).
    assert (Lr : length (fdisp (point idx) ds) = length boxes) by (rewrite fdisp_length, ds_length; auto; rewrite Lp, ds_length; auto).
    assert (Pt : forall k b m i, nth_error boxes k = Some b -> nth_error mesh k = Some m -> nth_error idx k = Some i -> fin (coord b m per i)).
    { intros k b m i Eb Em Ei. destruct (point_is idx F) as (_ & H). destruct (H k b m i Eb Em Ei) as (_ & x & Ex & Fx & _). rewrite (gpoint_nth per _ _ _ _ _ _ _ Eb Em Ei) in Ex. injection Ex as <-. exact Fx. }
    split; [cbn [length]; rewrite Lr; reflexivity|]. split; [|split].
    - constructor; [rewrite base_length; auto|]. apply Forall_forall. intros w Hw. apply In_nth_error in Hw as (k & Ek). rewrite (fdisp_len _ _ _ _ ltac:(rewrite Lp, ds_length; auto) Ek). apply ds_length.
    - cbn [hd]. assert (Fi : Forall (fun x => fin x) (point idx)). { apply Forall_forall. intros x Hx. apply In_nth_error in Hx as (k & Ek). assert (Hk : (k < length boxes)%nat) by (rewrite <- Lp; apply nth_error_Some; congruence). destruct (at_dim k Hk) as (b & m & Eb & Em & _). destruct (idx_nth idx k m F Em) as (i & Ei & Hi). rewrite (gpoint_nth per _ _ _ _ _ _ _ Eb Em Ei) in Ek. injection Ek as <-. eauto. }
      clear -Fi. induction Fi as [|x l Hx Fl IH]; cbn; constructor; auto. apply plus_zero. auto.
    - cbn [tl]. intros k w Ek j x y Ex Ey. assert (Hj : (j < length boxes)%nat) by (rewrite <- Lp; apply nth_error_Some; congruence). destruct (at_dim j Hj) as (b & m & Eb & Em & Gb1 & Hm & Hf). destruct (idx_nth idx j m F Em) as (i & Ei & Hi).
      rewrite (gpoint_nth per _ _ _ _ _ _ _ Eb Em Ei) in Ex. injection Ex as <-. rewrite (fdisp_nth _ _ _ _ _ _ _ Ek (gpoint_nth per _ _ _ _ _ _ _ Eb Em Ei) (ds_nth j b m Eb Em)) in Ey. apply some_inj in Ey; rewrite <- Ey. clear Ey y. split; intros C.
      + apply Nat.eqb_neq in C. rewrite C. apply plus_zero. eauto.
      + apply Nat.eqb_eq in C. rewrite C. destruct (plus_dist b m per Gb1 Hm Hf i Hi) as (_ & E & L). split; auto. intros b' m' Eb' Em'. rewrite Eb in Eb'. injection Eb' as <-. rewrite Em in Em'. injection Em' as <-. exact E. Qed.
End Mesh.
