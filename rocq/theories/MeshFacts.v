(** Facts about the initial mesh (C15, C16) and the mesh stencil (C17). *)
From Verif Require Import Base BaseFacts CoordSys SpecGeom CoordSysFacts CellListFacts Queue QueueFacts AverageFacts NelderMead SpecMin Mesh SpecMesh.
Open Scope Qc_scope.

(** ** The simplex at a vertex *)
Fixpoint displaced (v ds : point) : list point :=
  match v, ds with
  | x :: v', d :: ds' => (x + d :: v') :: map (cons x) (displaced v' ds')
  | _, _ => []
  end.
Lemma vadd_zeros v : vadd v (repeat 0 (length v)) = v.
Proof. unfold vadd. induction v as [|x v IH]; cbn; auto. f_equal; [ring|exact IH]. Qed.
Lemma rows_displaced v ds : length v = length ds ->
  map (vadd v) (map (fun i => map (fun j => if (i =? j)%nat then nth i ds 0 else 0) (seq 0 (length ds))) (seq 0 (length ds))) = displaced v ds.
Proof. revert ds. induction v as [|x v IH]; intros [|d ds] L; cbn in L; try discriminate; auto.
  cbn [length seq map displaced]. f_equal.
  - cbn [Nat.eqb nth]. unfold vadd. cbn. f_equal. rewrite <- seq_shift, map_map. cbn.
    replace (map (fun _ : nat => 0) (seq 0 (length ds))) with (repeat 0 (length v)); [apply vadd_zeros|].
    replace (length v) with (length ds) by lia. generalize (length ds) 0%nat. clear. intros n. induction n as [|n IH]; intros a; cbn; congruence.
  - rewrite <- IH by lia. rewrite <- seq_shift, !map_map. apply map_ext. intros i. cbn [Nat.eqb nth].
    unfold vadd. cbn. f_equal; [ring|]. f_equal. rewrite map_map. apply map_ext. intros j. reflexivity. Qed.
Lemma mesh_simplex_eq v ds : length v = length ds -> mesh_simplex ds v = v :: displaced v ds.
Proof. intros L. unfold mesh_simplex, simplex_stencil. cbn [map]. rewrite rows_displaced by auto. f_equal.
  rewrite <- L. apply vadd_zeros. Qed.
Lemma displaced_length v ds : length v = length ds -> length (displaced v ds) = length ds.
Proof. revert ds. induction v as [|x v IH]; intros [|d ds] L; cbn in *; try discriminate; auto. rewrite map_length, IH; lia. Qed.
Lemma displaced_point v ds p : length v = length ds -> In p (displaced v ds) -> length p = length ds.
Proof. revert ds p. induction v as [|x v IH]; intros [|d ds] p L; cbn in *; try discriminate; [intros []|].
  intros [<-|I]; [cbn; lia|]. apply in_map_iff in I as (q & <- & I). cbn. f_equal. apply (IH ds); auto. Qed.

(** coordinate sums determine the vertex *)
Lemma comb_displaced i : forall v ds cs, length v = length ds -> length cs = length ds -> (i < length ds)%nat ->
  qsum (map2 (fun c p => c * nth i p 0) cs (displaced v ds)) = nth i v 0 * qsum cs + nth i cs 0 * nth i ds 0.
Proof. induction i as [|i IH]; intros [|x v] [|d ds] [|c cs] L1 L2 Hi; cbn in L1, L2, Hi; try lia; cbn [displaced map2 nth].
  - unfold qsum at 1 2. cbn [fold_right]. fold (qsum cs).
    enough (E : fold_right Qcplus 0 (map2 (fun c p => c * nth 0 p 0) cs (map (cons x) (displaced v ds))) = x * qsum cs) by (rewrite E; ring).
    assert (L : length cs = length (displaced v ds)) by (rewrite displaced_length; lia).
    revert L. generalize (displaced v ds). clear. induction cs as [|c cs IH]; intros [|p l] L; cbn in *; try discriminate; [ring|].
    rewrite IH by lia. unfold qsum. cbn. ring.
  - unfold qsum at 1 2. cbn [fold_right]. fold (qsum cs).
    replace (map2 (fun c p => c * nth (S i) p 0) cs (map (cons x) (displaced v ds)))
      with (map2 (fun c p => c * nth i p 0) cs (displaced v ds)).
    + fold (qsum (map2 (fun c p => c * nth i p 0) cs (displaced v ds))). rewrite IH by lia. ring.
    + generalize (displaced v ds). clear. induction cs as [|c cs IH]; intros [|p l]; cbn; auto. f_equal; auto. Qed.

Lemma simplex_aff_indep v ds : length v = length ds -> Forall (fun d => d <> 0) ds -> aff_indep (length ds) (mesh_simplex ds v).
Proof. intros L Hd cs Lc S H. rewrite mesh_simplex_eq in * by auto. destruct cs as [|c cs]; [discriminate|].
  cbn in Lc. rewrite displaced_length in Lc by auto. unfold qsum in S; cbn in S. fold (qsum cs) in S.
  assert (T : Forall (fun c => c = 0) cs).
  { apply Forall_forall. intros a Ha. apply (In_nth _ _ 0) in Ha as (i & Hi & <-).
    specialize (H i ltac:(lia)). cbn [map2] in H. unfold qsum at 1 in H. cbn [fold_right] in H.
    fold (qsum (map2 (fun c p => c * nth i p 0) cs (displaced v ds))) in H. rewrite comb_displaced in H by lia.
    assert (E : nth i cs 0 * nth i ds 0 = 0).
    { transitivity (c * nth i v 0 + (nth i v 0 * qsum cs + nth i cs 0 * nth i ds 0) - nth i v 0 * (c + qsum cs)); [ring|].
      rewrite H, S. ring. }
    apply Qcmult_integral in E as [E|E]; auto. exfalso. rewrite Forall_forall in Hd. apply (Hd (nth i ds 0)); auto. apply nth_In. lia. }
  constructor; auto. assert (Q : qsum cs = 0). { clear -T. induction T; cbn; auto. unfold qsum in *. cbn. rewrite IHT, H. ring. }
  rewrite Q in S. transitivity (c + 0); [ring|auto]. Qed.

Lemma qsum_perm l m : Permutation l m -> qsum l = qsum m.
Proof. induction 1; unfold qsum in *; cbn; try congruence. ring. Qed.
Lemma map2_ones (f : point -> Qc) l n : n = length l -> map2 (fun c p => c * f p) (repeat 1 n) l = map f l.
Proof. intros ->. induction l as [|p l IH]; cbn; auto. f_equal; [ring|auto]. Qed.
Lemma qsum_ones n : qsum (repeat 1 n) = qc (Z.of_nat n).
Proof. induction n as [|n IH]; [symmetry; exact qc_0|]. unfold qsum in *. cbn [repeat fold_right]. rewrite IH, Nat2Z.inj_succ.
  unfold Z.succ. rewrite qc_add, qc_1. ring. Qed.

Lemma simplex_determines_vertex v w ds : length v = length ds -> length w = length ds ->
  Permutation (mesh_simplex ds v) (mesh_simplex ds w) -> v = w.
Proof. intros Lv Lw P. rewrite !mesh_simplex_eq in P by auto. apply (nth_ext _ _ 0 0); [congruence|]. intros i Hi.
  assert (S : forall u, length u = length ds -> qsum (map (fun p => nth i p 0) (u :: displaced u ds)) = nth i u 0 * (1 + qc (Z.of_nat (length ds))) + nth i ds 0).
  { intros u Lu. unfold qsum. cbn [map fold_right]. fold (qsum (map (fun p => nth i p 0) (displaced u ds))).
    rewrite <- (map2_ones (fun p => nth i p 0) (displaced u ds) (length ds)) by (rewrite displaced_length; auto).
    rewrite comb_displaced; rewrite ?repeat_length; auto; try lia. rewrite qsum_ones.
    replace (nth i (repeat 1 (length ds)) 0) with 1; [ring|]. symmetry.
    assert (Hj : (i < length ds)%nat) by lia. clear -Hj. revert i Hj. induction (length ds); intros [|i] Hi; cbn; auto; try lia. apply IHn; lia. }
  pose proof (qsum_perm _ _ (Permutation_map (fun p => nth i p 0) P)) as E. rewrite !S in E by auto.
  assert (K : 0 < 1 + qc (Z.of_nat (length ds))). { assert (0 <= qc (Z.of_nat (length ds))) by (apply qc_nonneg; lia). qlra. }
  set (k := 1 + qc (Z.of_nat (length ds))) in *. clearbody k. assert (E2 : (nth i v 0 - nth i w 0) * k = 0).
  { transitivity (nth i v 0 * k + nth i ds 0 - (nth i w 0 * k + nth i ds 0)); [ring|]. rewrite E. ring. }
  apply Qcmult_integral in E2 as [E2|E2]; [|exfalso; qlra].
  transitivity (nth i v 0 - nth i w 0 + nth i w 0); [ring|]. rewrite E2. ring. Qed.

(** ** linspace *)
Lemma linspace_length lo hi m e : length (linspace lo hi m e) = m.
Proof. unfold linspace. rewrite map_length, seq_length. auto. Qed.
Lemma linspace_in lo hi m e y : In y (linspace lo hi m e) <->
  exists i, (i < m)%nat /\ y = qc (Z.of_nat i) * ((hi - lo) / qc (if e then Z.of_nat m - 1 else Z.of_nat m)) + lo.
Proof. unfold linspace. rewrite in_map_iff. split.
  - intros (i & <- & Hi). apply in_seq in Hi. exists i. split; [lia|auto].
  - intros (i & Hi & ->). exists i. split; auto. apply in_seq. lia. Qed.
Lemma step_pos lo hi z : lo < hi -> (0 < z)%Z -> 0 < (hi - lo) / qc z.
Proof. intros H Hz. apply lt_div_iff; [apply qc_pos; auto|]. qlra. Qed.
Lemma linspace_nodup lo hi m e : lo < hi -> NoDup (linspace lo hi m e).
Proof. intros H. destruct (Nat.le_gt_cases m 1) as [Hm|Hm].
  - destruct m as [|[|m]]; [constructor|repeat constructor; auto|lia].
  - unfold linspace. apply NoDup_map_inj; [|apply seq_NoDup]. intros i j Hi Hj E.
    set (st := (hi - lo) / qc _) in *. assert (St : 0 < st) by (apply step_pos; auto; destruct e; lia).
    clearbody st. assert (Q : qc (Z.of_nat i) = qc (Z.of_nat j)).
    { assert (Z0 : (qc (Z.of_nat i) - qc (Z.of_nat j)) * st = 0).
      { transitivity (qc (Z.of_nat i) * st + lo - (qc (Z.of_nat j) * st + lo)); [ring|]. rewrite E. ring. }
      apply Qcmult_integral in Z0 as [Z0|Z0]; [|exfalso; qlra].
      transitivity (qc (Z.of_nat i) - qc (Z.of_nat j) + qc (Z.of_nat j)); [ring|]. rewrite Z0. ring. }
    apply qc_inj in Q. lia. Qed.

(** ** The mesh *)
Lemma product_length {A} (ls : list (list A)) : length (product ls) = fold_right Nat.mul 1%nat (map (@length A) ls).
Proof. induction ls as [|l ls IH]; cbn [product map fold_right]; auto.
  rewrite <- IH. generalize (product ls). intros P. induction l as [|a l IHl]; cbn; auto. rewrite app_length, map_length, IHl. auto. Qed.
Lemma vertices_length limits mesh per : length mesh = length limits -> length (mesh_vertices limits mesh per) = mesh_count mesh.
Proof. intros L. unfold mesh_vertices, mesh_count. rewrite product_length. f_equal.
  revert mesh L. induction limits as [|l ls IH]; intros [|m mesh] L; cbn in *; try discriminate; auto. rewrite linspace_length, IH; auto. Qed.
Lemma vertices_nodup limits mesh per : Forall (fun l => fst l < snd l) limits -> NoDup (mesh_vertices limits mesh per).
Proof. intros W. apply NoDup_product. revert mesh. induction W as [|l ls Hl W IH]; intros [|m mesh]; cbn; constructor; auto.
  apply linspace_nodup; auto. Qed.
Lemma vertices_in limits mesh per v : In v (mesh_vertices limits mesh per) <->
  Forall2 (fun y l => In y l) v (map2 (fun l m => linspace (fst l) (snd l) m (negb per)) limits mesh).
Proof. unfold mesh_vertices. apply in_product. Qed.
Lemma vertex_length limits mesh per v : length mesh = length limits -> In v (mesh_vertices limits mesh per) -> length v = length limits.
Proof. rewrite vertices_in. intros L F. revert mesh L v F. induction limits as [|l ls IH]; intros [|m mesh] L v F; cbn in *; try discriminate;
  inversion F; subst; cbn; auto. f_equal. eapply IH; [|eauto]. lia. Qed.
Lemma distances_length limits mesh : length mesh = length limits -> length (simplex_distances limits mesh) = length limits.
Proof. intros L. unfold simplex_distances. rewrite map2_length; auto. Qed.
Lemma distances_pos limits mesh : mesh_args limits mesh -> Forall (fun d => 0 < d) (simplex_distances limits mesh).
Proof. intros (L & W & M). unfold simplex_distances. revert mesh L M. induction W as [|l ls Hl W IH]; intros [|m mesh] L M; cbn in *; try discriminate; constructor.
  - inversion M; subst. rewrite <- qc_mul. apply step_pos; auto. lia.
  - apply IH; [lia|]. inversion M; auto. Qed.

Section Mesh.
  Variables (limits : list (Qc * Qc)) (mesh : list nat) (per : bool) (ss : list (list point)).
  Hypothesis A : mesh_args limits mesh.
  Hypothesis E : generate_mesh_simplices limits mesh per false = Ok ss.

  Lemma mesh_eq : ss = map (mesh_simplex (simplex_distances limits mesh)) (mesh_vertices limits mesh per).
  Proof. unfold generate_mesh_simplices in E. destruct A as (L & _). rewrite L, Nat.eqb_refl in E. cbn in E. congruence. Qed.
  Lemma mesh_vertex v : In v (mesh_vertices limits mesh per) -> length v = length (simplex_distances limits mesh).
  Proof. destruct A as (L & _). intros I. rewrite distances_length by auto. eapply vertex_length; eauto. Qed.

  Lemma mesh_shape : length ss = mesh_count mesh /\
    NoDup (map norm_simplex ss) /\
    Forall (fun s => is_simplex (length limits) s \/ limits = []) ss /\ Forall (aff_indep (length limits)) ss.
  Proof. rewrite mesh_eq. pose proof A as (L & W & M). split; [|split; [|split]].
    - rewrite map_length. apply vertices_length; auto.
    - rewrite map_map. apply NoDup_map_inj; [|apply vertices_nodup; auto]. intros v w Hv Hw Eq.
      apply norm_simplex_spec in Eq. apply (simplex_determines_vertex v w (simplex_distances limits mesh)); auto; apply mesh_vertex; auto.
    - apply Forall_forall. intros s Hs. apply in_map_iff in Hs as (v & <- & Hv). assert (El : limits = [] \/ (1 <= length limits)%nat) by (clear; destruct limits; cbn; [auto|right; lia]). destruct El as [El|El]; [right; auto|]. left.
      pose proof (mesh_vertex v Hv) as Lv. rewrite mesh_simplex_eq by auto. split; [exact El|]. split.
      + cbn. rewrite displaced_length, distances_length; auto.
      + constructor; [rewrite Lv; apply distances_length; auto|]. apply Forall_forall. intros p Hp. apply displaced_point in Hp; auto.
        rewrite Hp. apply distances_length; auto.
    - apply Forall_forall. intros s Hs. apply in_map_iff in Hs as (v & <- & Hv).
      pose proof (mesh_vertex v Hv) as Lv. rewrite <- (distances_length limits mesh) by auto. apply simplex_aff_indep; auto.
      pose proof (distances_pos _ _ A) as P. eapply Forall_impl; [|exact P]. cbn. auto. Qed.

End Mesh.

(** ** Coordinates *)
Definition spacing (limits : list (Qc * Qc)) (mesh : list nat) (per : bool) (i : nat) : Qc :=
  (nth_hi limits i - nth_lo limits i) / qc (if per then Z.of_nat (nth i mesh 0%nat) else Z.of_nat (nth i mesh 0%nat) - 1).
Lemma vertices_nth limits mesh per v : length mesh = length limits ->
  (In v (mesh_vertices limits mesh per) <-> length v = length limits /\
   forall i, (i < length limits)%nat -> exists k, (k < nth i mesh 0)%nat /\ nth i v 0 = qc (Z.of_nat k) * spacing limits mesh per i + nth_lo limits i).
Proof. intros L. rewrite vertices_in. revert mesh L v. induction limits as [|l ls IH]; intros [|m mesh] L v; cbn in L; try discriminate.
  - cbn. split; [intros F; inversion F; subst; split; [auto|intros; lia]|]. intros [E _]. destruct v; [constructor|discriminate].
  - cbn [map2]. split.
    + intros F. inversion F as [|x l' v' ls' Hx F']; subst. apply IH in F' as [Lv F']; [|lia]. split; [cbn; lia|].
      intros [|i] Hi; [|cbn in Hi; destruct (F' i ltac:(lia)) as (k & Hk & E); exists k; split; auto].
      apply linspace_in in Hx as (k & Hk & E). exists k. split; [exact Hk|]. cbn [nth]. rewrite E. unfold spacing, nth_hi, nth_lo. cbn [nth].
      destruct per; reflexivity.
    + intros [Lv F]. destruct v as [|x v]; [discriminate|]. constructor.
      * destruct (F 0%nat ltac:(cbn; lia)) as (k & Hk & E). apply linspace_in. exists k. split; [exact Hk|]. cbn [nth] in E. rewrite E.
        unfold spacing, nth_hi, nth_lo. cbn [nth]. destruct per; reflexivity.
      * apply IH; [lia|]. split; [cbn in Lv; lia|]. intros i Hi. destruct (F (S i) ltac:(cbn; lia)) as (k & Hk & E). exists k. split; auto. Qed.

Lemma distances_nth limits mesh i : length mesh = length limits -> (i < length limits)%nat ->
  nth i (simplex_distances limits mesh) 0 = (nth_hi limits i - nth_lo limits i) / (qc 2 * qc (Z.of_nat (nth i mesh 0%nat))).
Proof. unfold simplex_distances. revert mesh i. induction limits as [|l ls IH]; intros [|m mesh] [|i] L Hi; cbn in *; try discriminate; try lia; auto.
  rewrite IH by lia. reflexivity. Qed.

Lemma displaced_nth v ds p i : length v = length ds -> In p (displaced v ds) -> (i < length ds)%nat ->
  nth i p 0 = nth i v 0 \/ nth i p 0 = nth i v 0 + nth i ds 0.
Proof. revert ds p i. induction v as [|x v IH]; intros [|d ds] p i L; cbn [displaced]; try discriminate; [intros []|].
  intros [<-|I] Hi; [destruct i; cbn; auto|]. apply in_map_iff in I as (q & <- & I). destruct i; cbn in *; auto. apply IH; auto; lia. Qed.
Lemma displaced_at v ds i : length v = length ds -> (i < length ds)%nat -> exists p, In p (displaced v ds) /\ nth i p 0 = nth i v 0 + nth i ds 0.
Proof. revert ds i. induction v as [|x v IH]; intros [|d ds] i L Hi; cbn in L, Hi; try lia. destruct i as [|i].
  - eexists. split; [left; reflexivity|reflexivity].
  - destruct (IH ds i ltac:(lia) ltac:(lia)) as (p & Ip & E). exists (x :: p). split; [right; apply in_map; auto|exact E]. Qed.

Lemma nth_limits_lt limits i : Forall (fun l => fst l < snd l) limits -> (i < length limits)%nat -> nth_lo limits i < nth_hi limits i.
Proof. intros W Hi. rewrite Forall_forall in W. apply (W (nth i limits (0, 0))). apply nth_In. auto. Qed.
Lemma nth_mesh_pos mesh i n : Forall (fun m => (n <= m)%nat) mesh -> (i < length mesh)%nat -> (n <= nth i mesh 0)%nat.
Proof. intros W Hi. rewrite Forall_forall in W. apply W. apply nth_In. auto. Qed.
Lemma qc_half (s m : Qc) : 0 < m -> s / (qc 2 * m) = (s / m) / qc 2.
Proof. intros Hm. assert (m <> 0) by (intros ->; qlra). assert (qc 2 <> 0). { assert (0 < qc 2) by (apply qc_pos; lia). intros E. rewrite E in H0. qlra. } field. auto. Qed.

Lemma vertex_bounds limits mesh per v i : mesh_args limits mesh -> In v (mesh_vertices limits mesh per) -> (i < length limits)%nat ->
  nth_lo limits i <= nth i v 0 /\ nth i v 0 + (if per then 1 else 0) * spacing limits mesh per i <= nth_hi limits i.
Proof. intros (L & W & M) I Hi. apply vertices_nth in I as [Lv F]; auto. destruct (F i Hi) as (k & Hk & E).
  pose proof (nth_limits_lt _ _ W Hi) as Hl. unfold spacing in *. set (hi := nth_hi limits i) in *. set (lo := nth_lo limits i) in *. set (m := nth i mesh 0%nat) in *.
  clearbody hi lo m. rewrite E. clear -Hl Hk. destruct per.
  - assert (P : 0 < qc (Z.of_nat m)) by (apply qc_pos; lia). assert (P' : qc (Z.of_nat m) <> 0) by (intros X; rewrite X in P; qlra).
    pose proof (qc_div_mul (hi - lo) P') as D. pose proof (step_pos lo hi (Z.of_nat m) Hl ltac:(lia)) as SP. set (st := (hi - lo) / qc (Z.of_nat m)) in *. clearbody st.
    assert (K0 : 0 <= qc (Z.of_nat k)) by (apply qc_nonneg; lia).
    assert (K1 : qc (Z.of_nat k) + 1 <= qc (Z.of_nat m)). { rewrite <- qc_1, <- qc_add. apply qc_le. lia. }
    set (a := qc (Z.of_nat k)) in *. set (b := qc (Z.of_nat m)) in *. clearbody a b. split; qnra.
  - assert (K0 : 0 <= qc (Z.of_nat k)) by (apply qc_nonneg; lia).
    destruct (Nat.eq_dec m 1) as [->|Hm].
    + replace k with 0%nat by lia. change (qc (Z.of_nat 0)) with (qc 0). rewrite qc_0. split; qlra.
    + assert (P : 0 < qc (Z.of_nat m - 1)) by (apply qc_pos; lia). assert (P' : qc (Z.of_nat m - 1) <> 0) by (intros X; rewrite X in P; qlra).
      pose proof (qc_div_mul (hi - lo) P') as D. pose proof (step_pos lo hi (Z.of_nat m - 1) Hl ltac:(lia)) as SP. set (st := (hi - lo) / qc (Z.of_nat m - 1)) in *. clearbody st.
      assert (K1 : qc (Z.of_nat k) <= qc (Z.of_nat m - 1)) by (apply qc_le; lia).
      set (a := qc (Z.of_nat k)) in *. set (b := qc (Z.of_nat m - 1)) in *. clearbody a b. split; qnra. Qed.

(** A point of a mesh simplex *)
Lemma mesh_point limits mesh per ss s p i : mesh_args limits mesh -> generate_mesh_simplices limits mesh per false = Ok ss ->
  In s ss -> In p s -> (i < length limits)%nat ->
  exists v, In v (mesh_vertices limits mesh per) /\ (nth i p 0 = nth i v 0 \/ nth i p 0 = nth i v 0 + nth i (simplex_distances limits mesh) 0).
Proof. intros A E Hs Hp Hi. rewrite (mesh_eq _ _ _ _ A E) in Hs. apply in_map_iff in Hs as (v & <- & Hv). exists v. split; auto.
  pose proof (mesh_vertex limits mesh per A v Hv) as Lv. rewrite mesh_simplex_eq in Hp by auto. destruct Hp as [<-|Hp]; auto.
  apply displaced_nth; auto. rewrite distances_length; auto. apply A. Qed.

Lemma periodic_inside limits mesh ss s p i : mesh_args limits mesh -> generate_mesh_simplices limits mesh true false = Ok ss ->
  In s ss -> In p s -> (i < length limits)%nat -> nth_lo limits i <= nth i p 0 /\ nth i p 0 < nth_hi limits i.
Proof. intros A E Hs Hp Hi. pose proof A as (L & W & M). destruct (mesh_point _ _ _ _ _ _ _ A E Hs Hp Hi) as (v & Hv & C).
  pose proof (vertex_bounds _ _ _ _ _ A Hv Hi) as [B1 B2]. rewrite (distances_nth _ _ _ L Hi) in C.
  pose proof (nth_mesh_pos mesh i 1 M ltac:(lia)) as Hm. assert (P : 0 < qc (Z.of_nat (nth i mesh 0%nat))) by (apply qc_pos; lia).
  rewrite qc_half in C by auto. pose proof (step_pos _ _ (Z.of_nat (nth i mesh 0%nat)) (nth_limits_lt _ _ W Hi) ltac:(lia)) as SP. unfold spacing in B2.
  set (st := (nth_hi limits i - nth_lo limits i) / qc (Z.of_nat (nth i mesh 0%nat))) in *. clearbody st.
  assert (H2 : 0 < st / qc 2) by (apply lt_div_iff; [apply qc_pos; lia|]; qlra).
  assert (H3 : st / qc 2 < st). { assert (T : st = st / qc 2 * qc 2) by (apply qc_div_mul; discriminate). assert (qc 2 = 1 + 1) by (qcq; reflexivity). rewrite H in *. clear -T H2 H. set (u := st / (1 + 1)) in *. clearbody u. qlra. }
  set (h := st / qc 2) in *. clearbody h. destruct C as [C|C]; rewrite C; split; qlra. Qed.

Lemma nonperiodic_first_inside limits mesh ss s i : mesh_args limits mesh -> generate_mesh_simplices limits mesh false false = Ok ss ->
  In s ss -> (i < length limits)%nat -> nth_lo limits i <= nth i (hd [] s) 0 /\ nth i (hd [] s) 0 <= nth_hi limits i.
Proof. intros A E Hs Hi. rewrite (mesh_eq _ _ _ _ A E) in Hs. apply in_map_iff in Hs as (v & <- & Hv).
  rewrite mesh_simplex_eq by (eapply mesh_vertex; eauto). cbn [hd]. pose proof (vertex_bounds _ _ _ _ _ A Hv Hi) as [B1 B2]. split; qlra. Qed.

(** choose one vertex coordinate by coordinate *)
Lemma choose_list n (P : nat -> Qc -> Prop) : (forall i, (i < n)%nat -> exists y, P i y) -> exists v : point, length v = n /\ forall i, (i < n)%nat -> P i (nth i v 0).
Proof. revert P. induction n as [|n IH]; intros P H; [exists []; split; [auto|intros; lia]|].
  destruct (H 0%nat ltac:(lia)) as (y & Hy). destruct (IH (fun i => P (S i)) (fun i Hi => H (S i) ltac:(lia))) as (v & Lv & Hv).
  exists (y :: v). split; [cbn; lia|]. intros [|i] Hi; cbn; auto. apply Hv. lia. Qed.

Lemma nonperiodic_outside limits mesh ss i : mesh_args limits mesh -> generate_mesh_simplices limits mesh false false = Ok ss ->
  (i < length limits)%nat -> (2 <= nth i mesh 0)%nat -> exists s p, In s ss /\ In p s /\ nth_hi limits i < nth i p 0.
Proof. intros A E Hi Hm. pose proof A as (L & W & M).
  destruct (choose_list (length limits) (fun j y => exists k, (k < nth j mesh 0)%nat /\ y = qc (Z.of_nat k) * spacing limits mesh false j + nth_lo limits j /\
    (j = i -> k = (nth i mesh 0 - 1)%nat))) as (v & Lv & Hv).
  { intros j Hj. destruct (Nat.eq_dec j i) as [->|N].
    - eexists. exists (nth i mesh 0 - 1)%nat. split; [lia|]. split; [reflexivity|auto].
    - eexists. exists 0%nat. pose proof (nth_mesh_pos mesh j 1 M ltac:(lia)). split; [lia|]. split; [reflexivity|intros; contradiction]. }
  assert (Iv : In v (mesh_vertices limits mesh false)).
  { apply vertices_nth; auto. split; auto. intros j Hj. destruct (Hv j Hj) as (k & Hk & Ek & _). eauto. }
  pose proof (mesh_vertex limits mesh false A v Iv) as Lv'.
  exists (mesh_simplex (simplex_distances limits mesh) v).
  destruct (displaced_at v (simplex_distances limits mesh) i Lv') as (p & Ip & Ep); [rewrite distances_length; auto|].
  exists p. split; [rewrite (mesh_eq _ _ _ _ A E); apply in_map; auto|]. split; [rewrite mesh_simplex_eq by auto; right; auto|].
  rewrite Ep. destruct (Hv i Hi) as (k & Hk & Ek & Kk). rewrite (Kk eq_refl) in Ek. rewrite Ek.
  pose proof (distances_pos _ _ A) as DP. rewrite Forall_forall in DP. specialize (DP (nth i (simplex_distances limits mesh) 0)).
  assert (D0 : 0 < nth i (simplex_distances limits mesh) 0) by (apply DP; apply nth_In; rewrite distances_length; auto).
  unfold spacing. replace (Z.of_nat (nth i mesh 0%nat - 1)) with (Z.of_nat (nth i mesh 0%nat) - 1)%Z by lia.
  assert (P : 0 < qc (Z.of_nat (nth i mesh 0%nat) - 1)) by (apply qc_pos; lia). assert (P' : qc (Z.of_nat (nth i mesh 0%nat) - 1) <> 0) by (intros X; rewrite X in P; qlra).
  pose proof (qc_div_mul (nth_hi limits i - nth_lo limits i) P') as D. set (t := (nth_hi limits i - nth_lo limits i) / qc (Z.of_nat (nth i mesh 0%nat) - 1)) in *.
  replace (qc (Z.of_nat (nth i mesh 0%nat) - 1) * t) with (nth_hi limits i - nth_lo limits i) by (rewrite Qcmult_comm; exact D). qlra. Qed.

(** ** Coverage *)
(** nearest grid index: floor (x + 1/2) *)
Lemma nearest (x : Qc) : qabs (x - qc (qfloor (x + / qc 2))) <= / qc 2.
Proof. destruct (qfloor_spec (x + / qc 2)) as [F1 F2]. set (z := qc (qfloor (x + / qc 2))) in *. clearbody z.
  assert (H : / qc 2 + / qc 2 = 1) by (apply Qc_is_canon; reflexivity). set (h := / qc 2) in *. clearbody h.
  apply qabs_le. split; qlra. Qed.
Lemma scale_dist x z st : 0 < st -> qabs (x / st - z) <= / qc 2 -> qabs (x - z * st) <= st / qc 2.
Proof. intros H Q. apply qabs_le in Q as [Q1 Q2]. assert (N : st <> 0) by (intros ->; qlra).
  pose proof (qc_div_mul x N) as D. set (y := x / st) in *. clearbody y. change (st / qc 2) with (st * / qc 2). set (h := / qc 2) in *. clearbody h.
  apply qabs_le. rewrite D. split; qnra. Qed.

Lemma covered limits mesh per ss x : mesh_args limits mesh -> (per = false -> Forall (fun m => (2 <= m)%nat) mesh) ->
  (per = false -> forall i, (i < length limits)%nat -> nth_lo limits i <= nth i x 0 /\ nth i x 0 <= nth_hi limits i) ->
  generate_mesh_simplices limits mesh per false = Ok ss ->
  exists s, In s ss /\ forall i, (i < length limits)%nat -> exists k,
    (per = false -> k = 0%Z) /\
    qabs (nth i x 0 - nth i (hd [] s) 0 - qc k * (nth_hi limits i - nth_lo limits i)) <= spacing limits mesh per i / qc 2.
Proof. intros A M2 Bx E. pose proof A as (L & W & M).
  destruct (choose_list (length limits) (fun i y => (exists j, (j < nth i mesh 0)%nat /\ y = qc (Z.of_nat j) * spacing limits mesh per i + nth_lo limits i) /\
    exists k, (per = false -> k = 0%Z) /\ qabs (nth i x 0 - y - qc k * (nth_hi limits i - nth_lo limits i)) <= spacing limits mesh per i / qc 2)) as (v & Lv & Hv).
  { intros i Hi. pose proof (nth_limits_lt _ _ W Hi) as Hl. pose proof (nth_mesh_pos mesh i 1 M ltac:(lia)) as Hm. destruct per.
    - pose proof (step_pos _ _ (Z.of_nat (nth i mesh 0%nat)) Hl ltac:(lia)) as SP. unfold spacing.
      assert (P : 0 < qc (Z.of_nat (nth i mesh 0%nat))) by (apply qc_pos; lia). assert (P' : qc (Z.of_nat (nth i mesh 0%nat)) <> 0) by (intros X; rewrite X in P; qlra).
      pose proof (qc_div_mul (nth_hi limits i - nth_lo limits i) P') as D. set (st := (nth_hi limits i - nth_lo limits i) / qc (Z.of_nat (nth i mesh 0%nat))) in *.
      clearbody st. set (m := nth i mesh 0%nat) in *. clearbody m. pose proof (nearest ((nth i x 0 - nth_lo limits i) / st)) as Nr. apply scale_dist in Nr; auto.
      set (z := qfloor _) in Nr. clearbody z. pose proof (Z.div_mod z (Z.of_nat m) ltac:(lia)) as DM. pose proof (Z.mod_pos_bound z (Z.of_nat m) ltac:(lia)) as MB.
      exists (qc (z mod Z.of_nat m) * st + nth_lo limits i). split.
      + exists (Z.to_nat (z mod Z.of_nat m)). split; [lia|]. rewrite Z2Nat.id by lia. reflexivity.
      + exists (z / Z.of_nat m)%Z. split; [discriminate|]. rewrite D.
        replace (nth i x 0 - (qc (z mod Z.of_nat m) * st + nth_lo limits i) - qc (z / Z.of_nat m) * (st * qc (Z.of_nat m)))
          with (nth i x 0 - nth_lo limits i - qc z * st); auto.
        rewrite DM at 1. rewrite qc_add, qc_mul. ring.
    - pose proof (nth_mesh_pos mesh i 2 (M2 eq_refl) ltac:(lia)) as Hm2. destruct (Bx eq_refl i Hi) as [Bl Bh].
      pose proof (step_pos _ _ (Z.of_nat (nth i mesh 0%nat) - 1) Hl ltac:(lia)) as SP. unfold spacing.
      assert (P : 0 < qc (Z.of_nat (nth i mesh 0%nat) - 1)) by (apply qc_pos; lia). assert (P' : qc (Z.of_nat (nth i mesh 0%nat) - 1) <> 0) by (intros X; rewrite X in P; qlra).
      pose proof (qc_div_mul (nth_hi limits i - nth_lo limits i) P') as D. set (st := (nth_hi limits i - nth_lo limits i) / qc (Z.of_nat (nth i mesh 0%nat) - 1)) in *.
      clearbody st. set (m := nth i mesh 0%nat) in *. clearbody m. pose proof (nearest ((nth i x 0 - nth_lo limits i) / st)) as Nr. apply scale_dist in Nr; auto.
      assert (Y0 : 0 <= (nth i x 0 - nth_lo limits i) / st).
      { assert (N : st <> 0) by (intros ->; qlra). pose proof (qc_div_mul (nth i x 0 - nth_lo limits i) N) as D2. set (y := _ / st) in *. clearbody y.
        destruct (Qclt_le_dec y 0); auto. exfalso. qnra. }
      assert (Y1 : (nth i x 0 - nth_lo limits i) / st <= qc (Z.of_nat m - 1)) by (apply div_le_iff; auto; rewrite (Qcmult_comm (qc _)), <- D; qlra).
      destruct (qfloor_spec ((nth i x 0 - nth_lo limits i) / st + / qc 2)) as [F1 F2].
      set (y := (nth i x 0 - nth_lo limits i) / st) in *. clearbody y. set (z := qfloor _) in *. clearbody z.
      assert (H2 : / qc 2 + / qc 2 = 1) by (apply Qc_is_canon; reflexivity). assert (H3 : 0 < / qc 2) by reflexivity.
      set (h := / qc 2) in *. clearbody h.
      assert (Z0 : (0 <= z)%Z). { apply qc_lt_succ. rewrite qc_0. qlra. }
      assert (Z1 : (z <= Z.of_nat m - 1)%Z). { apply qc_lt_succ. qlra. }
      exists (qc z * st + nth_lo limits i). split.
      + exists (Z.to_nat z). split; [lia|]. rewrite Z2Nat.id by lia. reflexivity.
      + exists 0%Z. split; auto. rewrite qc_0. replace (nth i x 0 - (qc z * st + nth_lo limits i) - 0 * (nth_hi limits i - nth_lo limits i))
          with (nth i x 0 - nth_lo limits i - qc z * st) by ring. exact Nr. }
  exists (mesh_simplex (simplex_distances limits mesh) v).
  assert (Iv : In v (mesh_vertices limits mesh per)).
  { apply vertices_nth; auto. split; auto. intros j Hj. destruct (Hv j Hj) as (K & _). auto. }
  split; [rewrite (mesh_eq _ _ _ _ A E); apply in_map; auto|]. intros i Hi.
  rewrite mesh_simplex_eq by (eapply mesh_vertex; eauto). cbn [hd]. apply Hv. auto. Qed.

(** ** The automatic mesh stencil *)
Definition q52 : Qc := Q2Qc (5 # 2).
Definition stencil_limits (n : nat) : list (Qc * Qc) := repeat (- q52, q52) n.
Lemma nth_repeat_lt {A} (a d : A) n i : (i < n)%nat -> nth i (repeat a n) d = a.
Proof. revert i. induction n as [|n IH]; intros [|i] Hi; cbn; try lia; auto. apply IH. lia. Qed.
Lemma stencil_args n : mesh_args (stencil_limits n) (repeat 3%nat n).
Proof. unfold stencil_limits. split; [rewrite !repeat_length; auto|]. split.
  - apply Forall_forall. intros x Hx. apply repeat_spec in Hx as ->. reflexivity.
  - apply Forall_forall. intros x Hx. apply repeat_spec in Hx as ->. lia. Qed.
Lemma stencil_vertices n v : In v (mesh_vertices (stencil_limits n) (repeat 3%nat n) false) <->
  length v = n /\ Forall (fun y => y = - q52 \/ y = 0 \/ y = q52) v.
Proof. rewrite vertices_nth by (unfold stencil_limits; rewrite !repeat_length; auto). unfold stencil_limits at 1 2. rewrite !repeat_length. split.
  - intros [Lv H]. split; auto. apply Forall_forall. intros y Hy. apply (In_nth _ _ 0) in Hy as (i & Hi & <-).
    destruct (H i ltac:(lia)) as (k & Hk & ->). unfold spacing, nth_hi, nth_lo, stencil_limits in *. rewrite !nth_repeat_lt in * by lia. cbn [fst snd].
    destruct k as [|[|[|k]]]; [left|right; left|right; right|lia]; apply Qc_is_canon; reflexivity.
  - intros [Lv H]. split; auto. intros i Hi. rewrite Forall_forall in H. specialize (H (nth i v 0) (nth_In v 0 ltac:(rewrite Lv; exact Hi))).
    unfold spacing, nth_hi, nth_lo, stencil_limits. rewrite !nth_repeat_lt by lia. cbn [fst snd].
    destruct H as [-> | [-> | ->]]; [exists 0%nat|exists 1%nat|exists 2%nat]; (split; [lia|]); apply Qc_is_canon; reflexivity. Qed.
Lemma allclose0_stencil n v : In v (mesh_vertices (stencil_limits n) (repeat 3%nat n) false) -> (allclose0 v = true <-> v = repeat 0 n).
Proof. intros I. apply stencil_vertices in I as [<- H]. unfold allclose0. induction H as [|y v Hy H IH]; [cbn; tauto|].
  cbn [forallb length repeat]. rewrite Bool.andb_true_iff, IH. destruct Hy as [-> | [-> | ->]].
  - split; [intros [X _]; discriminate|intros X; discriminate].
  - split; [intros [_ <-]; auto|intros X; split; [reflexivity|injection X; auto]].
  - split; [intros [X _]; discriminate|intros X; discriminate]. Qed.
Lemma filter_one {A} (f : A -> bool) (a : A) l : NoDup l -> In a l -> (forall x, In x l -> (f x = true <-> x = a)) ->
  S (length (filter (fun x => negb (f x)) l)) = length l.
Proof. induction 1 as [|x l N D IH]; intros I H; [destruct I|]. cbn [filter length]. destruct (f x) eqn:E.
  - apply H in E; [|left; auto]. subst x. cbn [negb]. f_equal. replace (filter (fun x => negb (f x)) l) with l; auto.
    symmetry. transitivity (filter (fun _ => true) l); [apply filter_ext_in|clear; induction l; cbn; congruence]. intros y Hy.
    destruct (f y) eqn:Ey; auto. apply H in Ey; [|right; auto]. subst. contradiction.
  - cbn [negb length]. f_equal. apply IH; [|intros y Hy; apply H; right; auto]. destruct I as [->|I]; auto.
    assert (f a = true) by (apply H; [left|]; auto). congruence. Qed.
Lemma sq_le_sum i (p : point) : (i < length p)%nat -> nth i p 0 * nth i p 0 <= qsum (map (fun x => x * x) p).
Proof. revert i. induction p as [|x p IH]; intros i Hi; cbn in Hi; [lia|]. unfold qsum in *. cbn [map fold_right]. 
  assert (0 <= fold_right Qcplus 0 (map (fun x => x * x) p)). { clear. induction p as [|y p IH]; cbn; [qlra|]. qnra. }
  destruct i; cbn [nth]; [qlra|]. specialize (IH i ltac:(lia)). qnra. Qed.

Lemma auto_mesh_stencil n ss : get_auto_mesh_stencil n = Ok ss ->
  S (length ss) = (3 ^ n)%nat /\ NoDup (map norm_simplex ss) /\
  Forall (fun s => is_simplex n s /\ aff_indep n s /\ Forall (fun p => 1 < qsum (map (fun x => x * x) p)) s) ss.
Proof. unfold get_auto_mesh_stencil, get_mesh_stencil, generate_mesh_simplices. rewrite !repeat_length, Nat.eqb_refl. cbn [negb].
  fold q52. fold (stencil_limits n). intros E. injection E as <-. pose proof (stencil_args n) as A. pose proof A as (L & W & M).
  assert (LL : length (stencil_limits n) = n) by (unfold stencil_limits; apply repeat_length).
  set (V := mesh_vertices (stencil_limits n) (repeat 3%nat n) false).
  assert (ND : NoDup V) by (apply vertices_nodup; auto).
  assert (LV : forall v, In v V -> length v = length (simplex_distances (stencil_limits n) (repeat 3%nat n))) by (intros; eapply mesh_vertex; eauto).
  split; [|split].
  - rewrite map_length. rewrite (filter_one _ (repeat 0 n)); auto.
    + unfold V. rewrite vertices_length by auto. clear. unfold mesh_count. induction n; cbn [repeat fold_right Nat.pow]; auto.
    + apply stencil_vertices. rewrite repeat_length. split; auto. apply Forall_forall. intros x Hx. apply repeat_spec in Hx. auto.
    + intros v Hv. apply allclose0_stencil. auto.
  - rewrite map_map. apply NoDup_map_inj; [|apply NoDup_filter; auto]. intros v w Hv Hw Eq. apply filter_In in Hv as [Hv _]. apply filter_In in Hw as [Hw _].
    apply norm_simplex_spec in Eq. apply (simplex_determines_vertex v w (simplex_distances (stencil_limits n) (repeat 3%nat n))); auto.
  - apply Forall_forall. intros s Hs. apply in_map_iff in Hs as (v & <- & Hv). apply filter_In in Hv as [Hv NZ].
    pose proof (LV v Hv) as Lv. pose proof (distances_length (stencil_limits n) (repeat 3%nat n) L) as LD. rewrite LL in LD.
    assert (VN : v <> repeat 0 n). { intros X. apply (allclose0_stencil n v Hv) in X. rewrite X in NZ. discriminate. }
    apply stencil_vertices in Hv as [Lv' FV].
    assert (N1 : (1 <= n)%nat). { destruct n; [|lia]. destruct v; [exfalso; apply VN; auto|discriminate]. }
    assert (Dn : forall i, (i < n)%nat -> nth i (simplex_distances (stencil_limits n) (repeat 3%nat n)) 0 = Q2Qc (5 # 6)).
    { intros i Hi. rewrite distances_nth by lia. unfold nth_hi, nth_lo, stencil_limits. rewrite !nth_repeat_lt by lia. apply Qc_is_canon. reflexivity. }
    rewrite mesh_simplex_eq by auto. split; [|split].
    + split; auto. split; [cbn; rewrite displaced_length; lia|]. constructor; [lia|]. apply Forall_forall. intros p Hp. apply displaced_point in Hp; lia.
    + rewrite <- mesh_simplex_eq by auto. pose proof (simplex_aff_indep v _ Lv) as AI. rewrite LD in AI. apply AI. pose proof (distances_pos _ _ A) as P. eapply Forall_impl; [|exact P].
      cbn. intros a Ha ->. qlra.
    + assert (NZi : exists i, (i < n)%nat /\ (nth i v 0 = - q52 \/ nth i v 0 = q52)).
      { clear -FV Lv' VN. subst n. induction FV as [|y v Hy FV IH]; [exfalso; apply VN; auto|]. destruct Hy as [-> | [-> | ->]].
        - exists 0%nat. cbn. split; [lia|auto].
        - destruct IH as (i & Hi & Q). { intros X. apply VN. cbn. congruence. } exists (S i). cbn. split; [lia|auto].
        - exists 0%nat. cbn. split; [lia|auto]. }
      destruct NZi as (i & Hi & Q).
      assert (B : forall p, length p = n -> nth i p 0 = nth i v 0 \/ nth i p 0 = nth i v 0 + Q2Qc (5 # 6) -> 1 < qsum (map (fun x => x * x) p)).
      { intros p Lp C. eapply Qclt_le_trans; [|apply (sq_le_sum i p); lia].
        destruct C as [C|C]; rewrite C; destruct Q as [Q|Q]; rewrite Q; reflexivity. }
      constructor; [apply B; auto|]. apply Forall_forall. intros p Hp. apply B; [rewrite (displaced_point v _ p Lv Hp); auto|].
      rewrite <- (Dn i Hi). apply displaced_nth; auto; lia. Qed.
