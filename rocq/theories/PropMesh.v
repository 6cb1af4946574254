(** Property theorems C15-C17: initial mesh and refinement stencils. *)
From Verif Require Import Base BaseFacts CoordSys Queue QueueFacts NelderMead SpecMin Mesh SpecMesh MeshFacts.
Open Scope Qc_scope.

(** *** C15 *)
Lemma nodup_perm (ss : list (list point)) : NoDup (map norm_simplex ss) ->
  forall i j, (i < length ss)%nat -> (j < length ss)%nat -> Permutation (nth i ss []) (nth j ss []) -> i = j.
Proof. intros ND i j Hi Hj P. apply (proj1 (NoDup_nth (map norm_simplex ss) (norm_simplex [])) ND); rewrite ?map_length; auto.
  rewrite !map_nth. apply norm_simplex_spec. auto. Qed.

(** as many simplices as mesh points; no two have the same vertices; each has
    dim+1 points of the right dimension which are affinely independent *)
Theorem C15_mesh : forall limits mesh periodic ss, limits <> [] -> mesh_args limits mesh ->
  generate_mesh_simplices limits mesh periodic false = Ok ss ->
  length ss = mesh_count mesh /\
  (forall i j, (i < length ss)%nat -> (j < length ss)%nat -> Permutation (nth i ss []) (nth j ss []) -> i = j) /\
  Forall (fun s => is_simplex (length limits) s /\ aff_indep (length limits) s) ss.
Proof. intros limits mesh per ss NE A E. destruct (mesh_shape _ _ _ _ A E) as (L & ND & S & AI). split; [auto|]. split; [apply nodup_perm; auto|].
  rewrite Forall_forall in *. intros s Hs. split; [destruct (S s Hs); [auto|contradiction]|auto]. Qed.
Print Assumptions C15_mesh.

(** generation fails only if the number of mesh sizes is wrong *)
Theorem C15_mesh_defined : forall limits mesh periodic,
  (length mesh = length limits -> exists ss, generate_mesh_simplices limits mesh periodic false = Ok ss) /\
  (length mesh <> length limits -> generate_mesh_simplices limits mesh periodic false = Err ValueError).
Proof. intros limits mesh per. unfold generate_mesh_simplices. split; intros L.
  - rewrite L, Nat.eqb_refl. cbn. eauto.
  - apply Nat.eqb_neq in L. rewrite L. auto. Qed.
Print Assumptions C15_mesh_defined.

Theorem C15_periodic_inside : forall limits mesh ss, mesh_args limits mesh -> generate_mesh_simplices limits mesh true false = Ok ss ->
  forall s p i, In s ss -> In p s -> (i < length limits)%nat -> nth_lo limits i <= nth i p 0 /\ nth i p 0 < nth_hi limits i.
Proof. intros. eapply periodic_inside; eauto. Qed.
Print Assumptions C15_periodic_inside.

(** without periodicity the first point of each simplex is in the box, but with at
    least two mesh points in some dimension some simplex leaves the box *)
Theorem C15_nonperiodic_start_inside : forall limits mesh ss, mesh_args limits mesh -> generate_mesh_simplices limits mesh false false = Ok ss ->
  forall s i, In s ss -> (i < length limits)%nat -> nth_lo limits i <= nth i (hd [] s) 0 /\ nth i (hd [] s) 0 <= nth_hi limits i.
Proof. intros. eapply nonperiodic_first_inside; eauto. Qed.
Print Assumptions C15_nonperiodic_start_inside.
Theorem C15_nonperiodic_inside_refuted : forall limits mesh ss i, mesh_args limits mesh -> generate_mesh_simplices limits mesh false false = Ok ss ->
  (i < length limits)%nat -> (2 <= nth i mesh 0)%nat -> exists s p, In s ss /\ In p s /\ nth_hi limits i < nth i p 0.
Proof. exact nonperiodic_outside. Qed.
Print Assumptions C15_nonperiodic_inside_refuted.

(** *** C16: for every point there is a mesh simplex whose first point is, in each
    dimension, within half a mesh spacing; with periodicity up to a multiple of
    the period (and then for every point, inside the limits or not) *)
Theorem C16_mesh_covers_box : forall limits mesh ss x, mesh_args limits mesh -> Forall (fun m => (2 <= m)%nat) mesh ->
  (forall i, (i < length limits)%nat -> nth_lo limits i <= nth i x 0 /\ nth i x 0 <= nth_hi limits i) ->
  generate_mesh_simplices limits mesh false false = Ok ss ->
  exists s, In s ss /\ forall i, (i < length limits)%nat ->
    qabs (nth i x 0 - nth i (hd [] s) 0) <= (nth_hi limits i - nth_lo limits i) / qc (Z.of_nat (nth i mesh 0%nat) - 1) / qc 2.
Proof. intros limits mesh ss x A M B E. destruct (covered limits mesh false ss x A (fun _ => M) (fun _ => B) E) as (s & Hs & H).
  exists s. split; auto. intros i Hi. destruct (H i Hi) as (k & K0 & D). rewrite (K0 eq_refl), qc_0 in D. unfold spacing in D.
  replace (nth i x 0 - nth i (hd [] s) 0 - 0 * (nth_hi limits i - nth_lo limits i)) with (nth i x 0 - nth i (hd [] s) 0) in D by ring. exact D. Qed.
Print Assumptions C16_mesh_covers_box.
Theorem C16_periodic_mesh_covers : forall limits mesh ss x, mesh_args limits mesh ->
  generate_mesh_simplices limits mesh true false = Ok ss ->
  exists s, In s ss /\ forall i, (i < length limits)%nat -> exists k : Z,
    qabs (nth i x 0 - nth i (hd [] s) 0 - qc k * (nth_hi limits i - nth_lo limits i)) <=
      (nth_hi limits i - nth_lo limits i) / qc (Z.of_nat (nth i mesh 0%nat)) / qc 2.
Proof. intros limits mesh ss x A E. destruct (covered limits mesh true ss x A) as (s & Hs & H); try discriminate; auto.
  exists s. split; auto. intros i Hi. destruct (H i Hi) as (k & _ & D). eauto. Qed.
Print Assumptions C16_periodic_mesh_covers.

(** a 2 x 3 mesh of the box [0,1] x [-1,2] *)
Example mesh_example_limits : list (Qc * Qc) := [(0, 1); (- (1), 1 + 1)].
Example mesh_example_ok : mesh_args mesh_example_limits [2; 3]%nat /\
  exists ss, generate_mesh_simplices mesh_example_limits [2; 3]%nat false false = Ok ss /\ length ss = 6%nat.
Proof. split.
  - split; [reflexivity|]. split; repeat constructor.
  - eexists. split; [reflexivity|]. reflexivity. Qed.

(** *** C17: mesh stencil of the other dimensions: 3^dim - 1 different full
    simplices, all vertices farther from the centre than one [dist_cutoff] *)
Theorem C17_mesh_stencil : forall dim cutoff, 0 < cutoff -> exists ss, get_auto_mesh_stencil dim = Ok ss /\
  S (length ss) = (3 ^ dim)%nat /\
  (forall i j, (i < length ss)%nat -> (j < length ss)%nat -> Permutation (nth i ss []) (nth j ss []) -> i = j) /\
  forall s, In s ss -> is_simplex dim s /\ aff_indep dim s /\
    forall p, In p s -> cutoff * cutoff < qsum (map (fun x => (cutoff * x) * (cutoff * x)) p).
Proof. intros n c Hc. unfold get_auto_mesh_stencil, get_mesh_stencil, generate_mesh_simplices. rewrite !repeat_length, Nat.eqb_refl. cbn [negb].
  eexists. split; [reflexivity|]. match goal with |- context [S (length ?l)] => pose proof (auto_mesh_stencil n l) as H end.
  destruct H as (L & ND & F). { unfold get_auto_mesh_stencil, get_mesh_stencil, generate_mesh_simplices. rewrite !repeat_length, Nat.eqb_refl. reflexivity. }
  split; [exact L|]. split; [apply nodup_perm; exact ND|]. intros s Hs. rewrite Forall_forall in F. destruct (F s Hs) as (I & AI & P). split; [exact I|]. split; [exact AI|].
  intros p Hp. rewrite Forall_forall in P. specialize (P p Hp).
  replace (qsum (map (fun x => (c * x) * (c * x)) p)) with (c * c * qsum (map (fun x => x * x) p)).
  - set (q := qsum _) in *. clearbody q. assert (0 < c * c) by qnra. qnra.
  - clear. unfold qsum. induction p as [|x p IH]; cbn; [ring|]. rewrite <- IH. ring. Qed.
Print Assumptions C17_mesh_stencil.
