(** Property theorems C66: the refinement stencils in double precision. *)
From Verif Require Import Base BaseFacts CoordSys CellList Queue QueueFacts SpecQueue.
From Coq Require Import ZArith Reals Permutation.
From Flocq Require Import Core BinarySingleNaN.
From Verif Require Import Float FloatFacts FloatVector FloatVectorFacts NelderMead FloatMin FloatCell SpecFloatCell FloatCellNum FloatCellFacts PropFloatCell FloatCheck FloatController SpecFloatSearch
  FloatStencil FloatSearchStart FloatSearchExample PropFloatSearch Mesh SpecMesh FloatMesh SpecFloatMesh FloatMeshNum FloatMeshFacts PropFloatMesh
  Stencil SpecStencil StencilFacts StencilApprox SpecFloatStencil FloatStencilFacts FloatStencilDefault.
From Coq Require Import Lra.
Open Scope list_scope.

(** The default stencil, computed with errors of up to 1/100 and multiplied by the cutoff: its
    simplices stay different and in reach wherever they are placed. *)
Theorem C66_auto_stencil : forall qr boxes cutoff st, qr_ok qr -> Forall good_box boxes -> good_cutoff cutoff -> resolved_cutoff boxes cutoff ->
  auto_fstencil qr (List.length boxes) st ->
  resolved_stencil boxes (fscale_stencil cutoff st) /\
  forall per p, refinable per boxes p -> NoDup (map norm_fsimplex (ftranslate p (fscale_stencil cutoff st))) /\ Forall (Forall (good_position boxes)) (ftranslate p (fscale_stencil cutoff st)).
Proof. intros qr boxes c st Q Gb Gc Rc A. pose proof (auto_resolved qr boxes c st Q Gb Gc Rc A) as H. split; auto. intros per p Rp. apply (C64_stencil_moved per); auto. Qed.
Print Assumptions C66_auto_stencil.

(** The stencil of [get_mesh_stencil(mesh_size=..., dist_multiplier=...)] for any mesh size: one
    simplex for every point of the mesh in [-dist_multiplier, dist_multiplier]^dim except the origin. *)
Theorem C66_mesh_stencil : forall boxes cutoff dist_multiplier mesh_size, Forall good_box boxes -> good_cutoff cutoff ->
  is_finite dist_multiplier = true -> (bpow radix2 (-400) <= B2R dist_multiplier <= bpow radix2 399)%R ->
  Forall (fun m => (1 <= m)%nat /\ (INR m <= bpow radix2 36)%R) mesh_size ->
  Forall2 (fun b m => (32 * INR m * resolution b <= B2R cutoff * B2R dist_multiplier <= 32 * fbox_size b)%R) boxes mesh_size ->
  exists st, fget_mesh_stencil mesh_size dist_multiplier = Ok st /\ resolved_stencil boxes (fscale_stencil cutoff st) /\
    (let limits := repeat (fopp dist_multiplier, dist_multiplier) (List.length mesh_size) in
     (forall idx, Forall2 lt idx mesh_size -> exists v s, mesh_point false limits mesh_size idx v /\ mesh_simplex_at limits mesh_size v s /\ (In s st \/ at_origin v)) /\
     (forall s, In s st -> exists idx v, Forall2 lt idx mesh_size /\ mesh_point false limits mesh_size idx v /\ mesh_simplex_at limits mesh_size v s /\ ~ at_origin v)).
Proof. intros boxes c kd mesh Gb Gc Fk Bk Hm Hs. apply mesh_stencil_resolved; auto. symmetry. eapply F2_length; exact Hs. Qed.
Print Assumptions C66_mesh_stencil.

(** A search with the default stencil, started on a mesh: all of C64 applies, and it ends. *)
Theorem C66_default_search : forall qr g st mesh_size order force, qr_ok qr ->
  Forall good_box (fg_boxes g) -> (List.length (fg_boxes g) <= 64)%nat -> good_cutoff (fg_cutoff g) ->
  (fg_per g = true \/ Forall (fun b => (B2R (fg_cutoff g) <= fbox_size b)%R) (fg_boxes g)) ->
  resolved_cutoff (fg_boxes g) (fg_cutoff g) -> resolved_mesh (fg_boxes g) mesh_size ->
  auto_fstencil qr (List.length (fg_boxes g)) st -> fg_stencil g = Some (fscale_stencil (fg_cutoff g) st) ->
  good_fconfig g /\
  exists mesh s, fgenerate_mesh_simplices (fg_boxes g) mesh_size (fg_per g) false = Ok mesh /\
    fcreate_state (fg_per g) (fg_boxes g) (fg_gap g) (fg_cutoff g) order None mesh force = Ok s /\
    good_fstart g s [] [] (map norm_fsimplex mesh) [] /\ List.length (q_queued (fs_simplex s)) = mesh_count mesh_size /\
    (forall k ev, ffair_run g s k ev -> (1 <= fg_parallel g)%nat -> exists i, fover (k i)).
Proof. intros qr g st mesh_size order force Q Gb Dm Gc Ft Rc Rm A Es. assert (GC : good_fconfig g).
  { constructor; auto. intros st' p E Rp. rewrite Es in E. injection E as <-. destruct (C66_auto_stencil qr _ _ st Q Gb Gc Rc A) as (_ & H). eapply H; eauto. }
  split; auto. apply C65_fresh_search; auto. Qed.
Print Assumptions C66_default_search.

(** hypotheses met: doubles close to the exact default stencils exist *)
Lemma near_exists r : (Rabs r <= 3)%R -> exists x, near_double x r.
Proof. intros B. set (n := ZnearestE (r * 1048576)). assert (H : (Rabs (r * 1048576 - IZR n) <= / 2)%R) by apply Znearest_half.
  rewrite abs_le in B, H. assert (Bn : (Z.abs n <= 2 ^ 53)%Z). { apply le_IZR. rewrite abs_IZR. change (IZR (2 ^ 53)) with 9007199254740992%R. rewrite abs_le. lra. }
  destruct (of_dyadic_val n (-20) ltac:(lia) Bn) as (F & V). exists (of_dyadic n (-20)). split; [exact F|]. rewrite V. change (bpow radix2 (-20)) with (/ 1048576)%R. rewrite abs_le. lra. Qed.
Lemma all_exists {A B} (P : A -> B -> Prop) (l : list B) : (forall y, In y l -> exists x, P x y) -> exists l', Forall2 P l' l.
Proof. induction l as [|y l IH]; intros H; [exists []; constructor|]. destruct (H y (or_introl eq_refl)) as (x & X). destruct IH as (l' & L); [intros z Hz; apply H; right; auto|]. exists (x :: l'). constructor; auto. Qed.
Lemma circle_exists : exists st, fnear_circle 5 st.
Proof. apply all_exists. intros s Hs. apply all_exists. intros p Hp. apply (In_nth _ _ []) in Hs as (i & Hi & <-). rewrite circle_count in Hi. destruct (circle_size i p Hi Hp) as (B1 & B2).
  destruct (near_exists _ B1) as (a & Ha). destruct (near_exists _ B2) as (b & Hb). exists [a; b]. split; auto. Qed.
Lemma sphere_exists qr : qr_ok qr -> exists st, fnear_sphere qr 30 st.
Proof. intros Q. apply all_exists. intros s Hs. apply all_exists. intros [[u v] w] Hp. apply (In_nth _ _ []) in Hs as (i & Hi & <-). rewrite sphere_count in Hi. destruct (sphere_size qr Q i u v w Hi Hp) as (B1 & B2 & B3).
  destruct (near_exists _ B1) as (a & Ha). destruct (near_exists _ B2) as (b & Hb). destruct (near_exists _ B3) as (d & Hd). exists [a; b; d]. split; auto. Qed.
Lemma c66_cutoff : resolved_cutoff c62_boxes2 c62_quarter.
Proof. unfold resolved_cutoff. eapply Forall_impl; [|exact c62_sizes]. cbv beta. intros b (E & B). destruct (of_dyadic_val 1 (-2) ltac:(lia) ltac:(lia)) as (_ & V). change (B2R c62_quarter) with (B2R (of_dyadic 1 (-2))). rewrite V. change (bpow radix2 (-2)) with (/ 4)%R. unfold resolution. rewrite E. change (bpow radix2 10) with 1024%R.
  assert (Rabs (B2R (fst b)) <= 1)%R by (apply Rabs_le; lra). assert (bpow radix2 (-51) <= / 1048576)%R by (change (/ 1048576)%R with (bpow radix2 (-20)); apply bpow_le; lia). pose proof (bpow_gt_0 radix2 (-51)). split; nra. Qed.
Theorem C66_hypotheses_met : qr_ok lapack_qr /\ (forall dim, exists st, auto_fstencil lapack_qr dim st) /\
  exists st, auto_fstencil lapack_qr 2 st /\ List.length c62_boxes2 = 2%nat /\ Forall good_box c62_boxes2 /\ good_cutoff c62_quarter /\ resolved_cutoff c62_boxes2 c62_quarter /\ resolved_mesh c62_boxes2 [10; 10]%nat /\
    Forall (fun b => (B2R c62_quarter <= fbox_size b)%R) c62_boxes2 /\ List.length (fscale_stencil c62_quarter st) = 5%nat.
Proof. split; [exact lapack_qr_ok|]. split.
  - intros [|[|[|[|n]]]]; try (eexists; reflexivity); [apply circle_exists|apply sphere_exists, lapack_qr_ok|].
    unfold auto_fstencil, fget_auto_mesh_stencil, fget_mesh_stencil, fgenerate_mesh_simplices. rewrite !repeat_length. rewrite Nat.eqb_refl. eexists; reflexivity.
  - destruct circle_exists as (st & H). exists st. destruct C65_hypotheses_met as (G & Rm & _). pose proof (gf_cutoff _ (ex_fg_good 2)) as Gc. pose proof C62_hypotheses_met as (_ & _ & _ & _ & Ft & _).
    split; [exact H|]. split; [reflexivity|]. split; [exact G|]. split; [exact Gc|]. split; [exact c66_cutoff|]. split; [exact Rm|]. split; [exact Ft|]. unfold fscale_stencil. rewrite map_length, (F2_length _ _ _ H). apply circle_count. Qed.
Print Assumptions C66_hypotheses_met.
