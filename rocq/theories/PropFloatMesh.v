(** Property theorems C65: the initial mesh in double precision. *)
From Verif Require Import Base BaseFacts CoordSys CellList Queue QueueFacts SpecQueue.
From Coq Require Import ZArith Reals Permutation.
From Flocq Require Import Core BinarySingleNaN.
From Verif Require Import Float FloatFacts FloatVector FloatVectorFacts NelderMead FloatMin FloatCell SpecFloatCell FloatCellNum FloatCellFacts PropFloatCell FloatCheck FloatController SpecFloatSearch
  FloatStencil FloatSearchStart FloatSearchExample PropFloatSearch Mesh SpecMesh FloatMesh SpecFloatMesh FloatMeshNum FloatMeshFacts.
From Coq Require Import Lra.
Open Scope list_scope.

(** The numbers [np.linspace] gives for one coordinate: as many as asked for, each at least a
    resolution above the one before, in the box, the first at the lower limit; without
    periodicity the last is the upper limit, otherwise all are below it. *)
Theorem C65_coordinates : forall (per : bool) b m, good_box b -> (1 <= m)%nat -> (2 * INR m * resolution b <= fbox_size b)%R ->
  let l := flinspace (fst b) (snd b) m (negb per) in
  List.length l = m /\
  (forall i x, nth_error l i = Some x -> is_finite x = true /\ (B2R (fst b) <= B2R x <= B2R (snd b))%R /\ (Rabs (B2R x - exact_coord per b m i) <= resolution b / 4)%R /\ (per = true -> (B2R x < B2R (snd b))%R)) /\
  (forall i j x y, (i < j)%nat -> nth_error l i = Some x -> nth_error l j = Some y -> (B2R x + resolution b < B2R y)%R) /\
  (forall x, nth_error l 0 = Some x -> B2R x = B2R (fst b)) /\
  (per = false -> (1 < m)%nat -> nth_error l (m - 1) = Some (snd b)).
Proof. intros per b m Gb Hm Hf l. unfold l. rewrite coords_eq. assert (N : forall i x, nth_error (map (coord b m per) (seq 0 m)) i = Some x -> (i < m)%nat /\ x = coord b m per i).
  { intros i x E. assert (L : (i < m)%nat). { rewrite <- (seq_length m 0), <- (map_length (coord b m per)). apply nth_error_Some. congruence. } split; auto.
    rewrite nth_error_map in E. rewrite (nth_error_nth' _ 0%nat) in E by (rewrite seq_length; auto). rewrite seq_nth in E by auto. cbn in E. congruence. }
  split; [rewrite map_length, seq_length; reflexivity|]. split; [|split; [|split]].
  - intros i x E. apply N in E as (L & ->). destruct (coord_val b m per Gb Hm Hf i L) as (F & A). destruct (coord_inside b m per Gb Hm Hf i L) as (B & C). split; [exact F|]. split; [exact B|]. split; [exact A|]. intros Ep. apply C. auto.
  - intros i j x y L Ex Ey. apply N in Ex as (Lx & ->). apply N in Ey as (Ly & ->). apply (coord_increasing b m per Gb Hm Hf); auto.
  - intros x E. apply N in E as (_ & ->). apply (coord_first b m per Gb Hm Hf).
  - intros Ep L. rewrite nth_error_map, (nth_error_nth' _ 0%nat) by (rewrite seq_length; lia). rewrite seq_nth by lia. cbn [option_map plus]. rewrite (coord_last b m per Hm Ep L). reflexivity. Qed.
Print Assumptions C65_coordinates.

(** One simplex for every mesh point, and nothing else; all their vertices are positions for
    which lookups are reliable (C62), and the simplices stay different when queued. *)
Theorem C65_mesh : forall (per : bool) boxes mesh_size, Forall good_box boxes -> resolved_mesh boxes mesh_size ->
  exists l, fgenerate_mesh_simplices boxes mesh_size per false = Ok l /\ List.length l = mesh_count mesh_size /\
    (forall idx, Forall2 lt idx mesh_size -> exists v s, In s l /\ mesh_point per boxes mesh_size idx v /\ mesh_simplex_at boxes mesh_size v s) /\
    (forall s, In s l -> exists idx v, Forall2 lt idx mesh_size /\ mesh_point per boxes mesh_size idx v /\ mesh_simplex_at boxes mesh_size v s) /\
    NoDup (map norm_fsimplex l) /\ Forall (Forall (good_position boxes)) l.
Proof. intros per boxes mesh Gb Rm. pose proof (dims boxes mesh Rm) as L. eexists. split; [unfold fgenerate_mesh_simplices; rewrite L, Nat.eqb_refl; reflexivity|].
  split; [rewrite map_length; apply vertices_count; auto|]. split; [|split; [|split]].
  - intros idx F. exists (gpoint per boxes mesh idx), (fmesh_simplex (fsimplex_distances boxes mesh) (gpoint per boxes mesh idx)). split; [apply in_map; apply in_fmesh_vertices; eauto|]. split; [apply point_is; auto|apply simplex_is; auto].
  - intros s Hs. apply in_map_iff in Hs as (v & <- & Hv). apply in_fmesh_vertices in Hv as (idx & F & ->); auto. exists idx, (gpoint per boxes mesh idx). split; auto. split; [apply point_is; auto|apply simplex_is; auto].
  - apply simplices_nodup; auto.
  - apply simplices_good; auto. Qed.
Print Assumptions C65_mesh.

(** A fresh search starts with exactly the simplices of the mesh waiting, in a state to which all
    of C64 applies. *)
Theorem C65_fresh_search : forall g mesh_size order force, good_fconfig g -> resolved_mesh (fg_boxes g) mesh_size ->
  exists mesh s, fgenerate_mesh_simplices (fg_boxes g) mesh_size (fg_per g) false = Ok mesh /\
    fcreate_state (fg_per g) (fg_boxes g) (fg_gap g) (fg_cutoff g) order None mesh force = Ok s /\
    good_fstart g s [] [] (map norm_fsimplex mesh) [] /\ List.length (q_queued (fs_simplex s)) = mesh_count mesh_size /\
    (forall k ev, ffair_run g s k ev -> (1 <= fg_parallel g)%nat -> exists i, fover (k i)).
Proof. intros g mesh_size order force GC Rm. destruct (C65_mesh (fg_per g) (fg_boxes g) mesh_size (gf_boxes g GC) Rm) as (mesh & E & L & _ & _ & N & G).
  destruct (C64_fresh_start g order mesh force GC G N) as (s & Es & GS & _). exists mesh, s. split; auto. split; auto. split; auto. split.
  - destruct (gt_simplex _ _ _ _ _ _ GS) as (W & _). rewrite W, map_length. exact L.
  - intros k ev F Par. eapply C64_search_ends; eauto. Qed.
Print Assumptions C65_fresh_search.
Theorem C65_wrong_dimensions : forall boxes mesh_size per skip, List.length mesh_size <> List.length boxes -> fgenerate_mesh_simplices boxes mesh_size per skip = Err ValueError.
Proof. intros boxes mesh per skip N. unfold fgenerate_mesh_simplices. apply Nat.eqb_neq in N. rewrite N. reflexivity. Qed.
Print Assumptions C65_wrong_dimensions.

(** Finding: in a box of a few spacings of doubles, the mesh points coincide; the same simplex is
    queued (and minimized) several times, more minimizations run than allowed, and the search
    ends with a KeyError. *)
Definition fine_box : double * double := (fone, of_dyadic (2 ^ 50 + 1) (-50)).
Definition fine_g : fconfig := mk_fconfig true [fine_box] fone (of_dyadic 1 (-52)) None 2 true 0 0.
Definition fine_mesh : list fsimplex := match fgenerate_mesh_simplices [fine_box] [10%nat] true false with Ok l => l | Err _ => [] end.
Definition fine_result : dmin_result := result_at (d1 1 0) (of_dyadic 4 0).
Lemma fine_started : ex_run fine_g fine_mesh [FTurn 0] = Some [3; 3; 0; 0; 0; 0; 0]%nat.
Proof. vm_compute. reflexivity. Qed.
Lemma fine_raised : ex_run fine_g fine_mesh [FTurn 0; FDone 0 fine_result; FDone 1 fine_result; FTurn 0] = Some [1; 3; 2; 0; 0; 0; 3]%nat.
Proof. vm_compute. reflexivity. Qed.
Theorem C65_fine_mesh_refuted : exists s k k2, good_fconfig fine_g /\ fgenerate_mesh_simplices (fg_boxes fine_g) [10%nat] true false = Ok fine_mesh /\
  fcreate_state (fg_per fine_g) (fg_boxes fine_g) (fg_gap fine_g) (fg_cutoff fine_g) (fun l => l) None fine_mesh false = Ok s /\ fg_parallel fine_g = 2%nat /\
  frun_events fine_g (fstart s) [FTurn 0] = Some k /\ frunning_now k = 3%nat /\
  frun_events fine_g (fstart s) [FTurn 0; FDone 0 fine_result; FDone 1 fine_result; FTurn 0] = Some k2 /\ fk_phase k2 = FRaised KeyError.
Proof. destruct (ex_run_inv _ _ _ _ fine_started) as (s & k & E & Rn & H). destruct (ex_run_inv _ _ _ _ fine_raised) as (s2 & k2 & E2 & Rn2 & H2).
  rewrite E in E2. injection E2 as <-. exists s, k, k2.
  destruct fone_val as (F1 & V1). destruct (of_dyadic_val (2 ^ 50 + 1) (-50) ltac:(lia) ltac:(lia)) as (Fh & Vh). destruct (of_dyadic_val 1 (-52) ltac:(lia) ltac:(lia)) as (Fc & Vc). destruct (of_dyadic_val 1 (-50) ltac:(lia) ltac:(lia)) as (Fz & Vz).
  assert (Sz : fsub (of_dyadic (2 ^ 50 + 1) (-50)) fone = of_dyadic 1 (-50)) by (apply B2SF_inj; vm_compute; reflexivity).
  assert (Hh : B2R (of_dyadic (2 ^ 50 + 1) (-50)) = (1 + bpow radix2 (-50))%R). { rewrite Vh, plus_IZR, Rmult_plus_distr_r. f_equal; [|ring]. change (IZR (2 ^ 50)) with (bpow radix2 50). rewrite <- bpow_plus. reflexivity. }
  assert (L1 : (bpow radix2 (-400) <= bpow radix2 (-52))%R) by (apply bpow_le; lia). assert (L2 : (bpow radix2 (-52) <= 1)%R) by (change 1%R with (bpow radix2 0); apply bpow_le; lia).
  assert (L3 : (bpow radix2 (-50) <= 1)%R) by (change 1%R with (bpow radix2 0); apply bpow_le; lia). assert (L4 : (4 <= bpow radix2 400)%R) by (change 4%R with (bpow radix2 2); apply bpow_le; lia). assert (L5 : (bpow radix2 (-52) <= bpow radix2 (-50))%R) by (apply bpow_le; lia). pose proof (bpow_gt_0 radix2 (-50)) as P50.
  split.
  { constructor; cbn [fg_boxes fg_cutoff fg_per fg_stencil fine_g]; [| | |auto|discriminate].
    - constructor; [|constructor]. unfold good_box, fbox_size, fine_box. cbn [fst snd]. rewrite Sz, V1, Hh, Vz. split; [exact F1|]. split; [exact Fh|]. split; [lra|]. split; [apply Rabs_le; lra|]. split; [apply Rabs_le; lra|lra].
    - cbn. lia.
    - split; [exact Fc|]. rewrite Vc. lra. }
  split; [reflexivity|]. split; [exact E|]. split; [reflexivity|]. split; [exact Rn|]. unfold fsummary in H, H2. split; [exact (f_equal (hd 0%nat) H)|]. split; [exact Rn2|].
  pose proof (f_equal (fun l => nth 6 l 0%nat) H2) as X. cbn [nth] in X. destruct (fk_phase k2) as [| | |[]]; try discriminate. reflexivity. Qed.
Print Assumptions C65_fine_mesh_refuted.

(** hypotheses met: a two-dimensional box, ten points per direction *)
Theorem C65_hypotheses_met : Forall good_box c62_boxes2 /\ resolved_mesh c62_boxes2 [10; 10]%nat /\
  (exists g, good_fconfig g /\ fg_boxes g = c62_boxes2 /\ fg_parallel g = 50%nat) /\ mesh_count [10; 10]%nat = 100%nat /\ Forall2 lt [3; 9]%nat [10; 10]%nat.
Proof. pose proof c62_boxes2_good as G. split; [exact G|]. pose proof c62_sizes as Sz. split.
  - assert (C : forall b, fbox_size b = 1%R /\ (-1 <= B2R (fst b) <= 1)%R -> (1 <= 10)%nat /\ (2 * INR 10 * resolution b <= fbox_size b)%R).
    { intros b (E & B). split; [lia|]. unfold resolution. rewrite E. change (bpow radix2 10) with 1024%R. replace (INR 10) with 10%R by (cbn; lra).
      assert (Rabs (B2R (fst b)) <= 1)%R by (apply Rabs_le; lra). assert (bpow radix2 (-51) <= / 1048576)%R by (change (/ 1048576)%R with (bpow radix2 (-20)); apply bpow_le; lia). pose proof (bpow_gt_0 radix2 (-51)). nra. }
    unfold resolved_mesh, c62_boxes2 in *. constructor; [apply C; exact (Forall_inv Sz)|]. constructor; [apply C; exact (Forall_inv (Forall_inv_tail Sz))|constructor].
  - split; [|split; [reflexivity|repeat constructor]]. exists (mk_fconfig true c62_boxes2 fone c62_quarter None 50 true 0 0). split; [|split; reflexivity].
    constructor; cbn [fg_boxes fg_cutoff fg_per fg_stencil]; [exact G| | |auto|discriminate]; [cbn; lia|]. exact (gf_cutoff _ (ex_fg_good 2)). Qed.
Print Assumptions C65_hypotheses_met.
