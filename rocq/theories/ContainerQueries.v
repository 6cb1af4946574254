(** Queries on the container: fake potential and discard rules. *)
From Verif Require Import Base BaseFacts CoordSys SpecGeom CoordSysFacts CellList CellListFacts Values Container
  CellGeomFacts SpecContainer ContainerFacts.
Open Scope Qc_scope.
Set Implicit Arguments.

Lemma sq_lt_dist cs p q c : sq_lt (dist_sq cs p q) c = dist_lt cs p q c.
Proof. reflexivity. Qed.
Lemma dist_lt_mono cs p q w c : w <= c -> dist_lt cs p q w = true -> dist_lt cs p q c = true.
Proof. unfold dist_lt. intros Hwc H. apply andb_true_iff in H as [H1 H2]. apply andb_true_iff.
  rewrite ltb_spec in H1, H2. rewrite !ltb_spec. set (d := dist_sq cs p q) in *. clearbody d. split; [qlra|].
  apply Qclt_le_trans with (w * w); auto. qnra. Qed.

Lemma existsb_ext_in {A} (f : A -> bool) l m : (forall x, f x = true -> (In x l <-> In x m)) -> existsb f l = existsb f m.
Proof. intros H. apply eq_true_iff_eq. rewrite !existsb_exists. split; intros (x & Hx & Fx); exists x; split; auto; apply H; auto. Qed.

Lemma neighbour_any c width p : c_good c -> is_pos (c_cs c) p -> lookup_complete (c_cs c) (c_cutoff c) ->
  width <= c_cutoff c ->
  exists ds, neighbour_distances_sq c p = Ok ds /\
    existsb (fun d => sq_lt d width) ds = node_near (c_cs c) width (cl_flat (c_nodes c)) p.
Proof. intros G Hp Hc Hw. destruct (neighbours_spec G Hp) as (ns & E & Hin & Hcomp & _).
  unfold neighbour_distances_sq. rewrite E. cbn [bind]. eexists. split; [reflexivity|].
  apply eq_true_iff_eq. unfold node_near. rewrite !existsb_exists. split.
  - intros (d & Hd & Hs). apply in_map_iff in Hd as (r & <- & Hr). exists r. destruct (Hin r Hr) as [H1 H2].
    split; auto. apply andb_true_iff. split; [apply negb_true_iff, eqb_false; auto|exact Hs].
  - intros (r & Hr & Hs). apply andb_true_iff in Hs as [H1 H2]. apply negb_true_iff, eqb_false in H1.
    exists (dist_sq (c_cs c) p (pos_of r)). split; [|exact H2]. apply in_map_iff. exists r. split; auto.
    apply Hcomp; auto. eapply dist_lt_mono; eauto. Qed.

Lemma fake_potential_spec c width p : c_good c -> is_pos (c_cs c) p -> lookup_complete (c_cs c) (c_cutoff c) ->
  width <= c_cutoff c ->
  fake_potential c width p = Ok (if node_near (c_cs c) width (cl_flat (c_nodes c)) p then PInf else Fin 0).
Proof. intros G Hp Hc Hw. unfold fake_potential. destruct (neighbour_any G Hp Hc Hw) as (ds & -> & E).
  cbn [bind]. rewrite E. reflexivity. Qed.

Lemma check_simplex_loop_spec c k vs : forall n, c_good c -> Forall (is_pos (c_cs c)) vs ->
  lookup_complete (c_cs c) (c_cutoff c) -> (n <= k)%nat ->
  check_simplex_loop c (c_cutoff c) k n vs =
  Ok (n + count (node_near (c_cs c) (c_cutoff c) (cl_flat (c_nodes c))) vs <=? k)%nat.
Proof. induction vs as [|p vs IH]; intros n G Hv Hc Hn; cbn [check_simplex_loop].
  - cbn. rewrite Nat.add_0_r. symmetry. f_equal. apply Nat.leb_le. auto.
  - inversion Hv as [|? ? Hp Hvs]; subst.
    destruct (@neighbour_any c (c_cutoff c) p G Hp Hc) as (ds & -> & E); [apply Qcle_refl|].
    cbn [bind]. rewrite E. unfold count. cbn [filter]. destruct (node_near _ _ _ p); cbn [length].
    + destruct (Nat.ltb_spec k (S n)).
      * symmetry. f_equal. apply Nat.leb_gt. lia.
      * rewrite IH by (auto; lia). f_equal. unfold count. f_equal. lia.
    + rewrite IH by auto. reflexivity. Qed.
Lemma check_simplex_spec c k vs : c_good c -> Forall (is_pos (c_cs c)) vs ->
  lookup_complete (c_cs c) (c_cutoff c) ->
  check_simplex c (c_cutoff c) k vs =
  Ok (count (node_near (c_cs c) (c_cutoff c) (cl_flat (c_nodes c))) vs <=? k)%nat.
Proof. intros. unfold check_simplex. rewrite check_simplex_loop_spec by (auto; lia). reflexivity. Qed.

Lemma recheck_loop_spec cutoff k ds : forall n, (n <= k)%nat ->
  recheck_loop cutoff k n ds = (n + count (fun d => sq_lt d cutoff) ds <=? k)%nat.
Proof. induction ds as [|d ds IH]; intros n Hn; cbn [recheck_loop].
  - cbn. symmetry. apply Nat.leb_le. lia.
  - unfold count. cbn [filter]. destruct (sq_lt d cutoff); cbn [length].
    + destruct (Nat.ltb_spec k (S n)).
      * symmetry. apply Nat.leb_gt. lia.
      * rewrite IH by lia. unfold count. f_equal. lia.
    + destruct (Nat.ltb_spec k n); [lia|]. apply IH. auto. Qed.

Lemma count_map {A B} (f : B -> bool) (g : A -> B) l : count f (map g l) = count (fun x => f (g x)) l.
Proof. unfold count. induction l as [|a l IH]; simpl; auto. destruct (f (g a)); simpl; auto. Qed.
Lemma count_perm {A} (f : A -> bool) l m : Permutation l m -> count f l = count f m.
Proof. unfold count. induction 1; simpl; auto; [destruct (f x) | destruct (f x), (f y) |]; simpl; lia. Qed.
Lemma count_app {A} (f : A -> bool) l m : count f (l ++ m) = (count f l + count f m)%nat.
Proof. unfold count. rewrite filter_app, app_length. reflexivity. Qed.
Lemma count_filter_le {A} (f g : A -> bool) l : (forall x, In x l -> f x = true -> g x = true) ->
  count f (filter g l) = count f l.
Proof. unfold count. induction l as [|a l IH]; simpl; intros H; auto. destruct (g a) eqn:E; simpl.
  - destruct (f a); simpl; auto.
  - destruct (f a) eqn:F; auto. rewrite H in E; auto. discriminate. Qed.
Lemma count_zero {A} (f : A -> bool) l : count f l = 0%nat <-> forall x, In x l -> f x = false.
Proof. unfold count. induction l as [|a l IH]; simpl; [tauto|]. destruct (f a) eqn:E; simpl.
  - split; [discriminate|]. intros H. rewrite H in E; auto. discriminate.
  - rewrite IH. split; [intros H x [<-|Hx]; auto | auto]. Qed.
Lemma count_cells_ge {V} (f : V -> bool) (k : V -> index) vs idxs :
  (count f (filter (fun v => mem (k v) idxs) vs) <=
   count f (concat (map (fun i => filter (fun v => eqb i (k v)) vs) idxs)))%nat.
Proof. induction idxs as [|i idxs IH]; simpl.
  - clear. induction vs; simpl; auto.
  - rewrite count_app.
    assert (S : (count f (filter (fun v => eqb (k v) i || mem (k v) idxs) vs) <=
      count f (filter (fun v => eqb i (k v)) vs) + count f (filter (fun v => mem (k v) idxs) vs))%nat).
    { clear IH. unfold count. induction vs as [|v vs IHv]; simpl; auto.
      destruct (eq_dec i (k v)) as [->|N].
      - rewrite !eqb_refl. simpl. destruct (mem (k v) idxs); simpl; destruct (f v); simpl; lia.
      - rewrite (proj2 (eqb_false i (k v))) by auto. rewrite (proj2 (eqb_false (k v) i)) by auto. simpl.
        destruct (mem (k v) idxs); simpl; destruct (f v); simpl; lia. }
    unfold mem in *. lia. Qed.

Definition near_refined (c : container) (p q : point) : bool := dist_lt (c_cs c) p q (c_cutoff c).

Lemma check_pos_spec c k p : c_good c -> is_pos (c_cs c) p -> lookup_complete (c_cs c) (c_cutoff c) ->
  exists b, check_pos_refinement c (c_cutoff c) k p = Ok b /\
    (b = true -> (count (near_refined c p) (cl_flat (c_refined c)) <= k)%nat) /\
    (lookup_unique (c_cs c) (c_cutoff c) -> b = (count (near_refined c p) (cl_flat (c_refined c)) <=? k)%nat) /\
    (k = 0%nat -> b = negb (existsb (near_refined c p) (cl_flat (c_refined c)))).
Proof. intros G Hp Hc. destruct (refined_spec G Hp) as (ns & E & Hin & Hcomp & Hu).
  unfold check_pos_refinement, refined_distances_sq. rewrite E. cbn [bind]. eexists. split; [reflexivity|].
  rewrite recheck_loop_spec by lia. cbn [Nat.add]. rewrite count_map.
  change (fun x => sq_lt (dist_sq (c_cs c) p x) (c_cutoff c)) with (near_refined c p).
  split; [|split].
  - intros B. apply Nat.leb_le in B. eapply Nat.le_trans; [|exact B].
    assert (Lf : length (get_frac (c_cs c) p) = length (cl_num (c_refined c))).
    { rewrite (cg_num_r G), num_cells_length. apply get_frac_length; auto. }
    rewrite (get_neighbour_values_ok (get_frac (c_cs c))) in E by (auto; apply G). injection E as <-.
    eapply Nat.le_trans; [|apply (count_cells_ge (near_refined c p) (fun v => get_index (c_refined c) (get_frac (c_cs c) v)))].
    rewrite count_filter_le; auto. intros q Hq Hd. apply mem_spec.
    pose proof (Hcomp Hc q Hq Hd) as Hq'. apply in_concat in Hq' as (l & Hl & Hql).
    apply in_map_iff in Hl as (i & <- & Hi). apply filter_In in Hql as [_ Ei]. apply eqb_spec in Ei. subst. auto.
  - intros U. destruct (Hu U) as [rest P]. rewrite <- (count_perm (near_refined c p) P), count_app.
    assert (Z : count (near_refined c p) rest = 0%nat).
    { (* every near position is reported, and reported ones account for all of them *)
      assert (Lf : length (get_frac (c_cs c) p) = length (cl_num (c_refined c))).
      { rewrite (cg_num_r G), num_cells_length. apply get_frac_length; auto. }
      pose proof E as E'.
      rewrite (get_neighbour_values_ok (get_frac (c_cs c))) in E' by (auto; apply G). injection E' as E'.
      pose proof (count_cells_ge (near_refined c p) (fun v => get_index (c_refined c) (get_frac (c_cs c) v)) (cl_flat (c_refined c))
        (calculate_neighbour_indices (c_refined c) (get_index (c_refined c) (get_frac (c_cs c) p)))) as L.
      cbv beta in L. rewrite E' in L. rewrite count_filter_le in L.
      - rewrite <- (count_perm (near_refined c p) P), count_app in L. lia.
      - intros q Hq Hd. apply mem_spec. pose proof (Hcomp Hc q Hq Hd) as Hq'. rewrite <- E' in Hq'.
        apply in_concat in Hq' as (l & Hl & Hql).
        apply in_map_iff in Hl as (i & <- & Hi). apply filter_In in Hql as [_ Ei]. apply eqb_spec in Ei. subst. auto. }
    rewrite Z, Nat.add_0_r. reflexivity.
  - intros ->. apply eq_true_iff_eq. rewrite Nat.leb_le, negb_true_iff, <- not_true_iff_false, existsb_exists.
    split.
    + intros H (q & Hq & Hd). assert (Z : count (near_refined c p) ns = 0%nat) by lia.
      rewrite count_zero in Z. rewrite (Z q) in Hd; [discriminate|]. apply Hcomp; auto.
    + intros H. apply Nat.eq_le_incl. apply count_zero. intros q Hq. apply not_true_iff_false. intros Hd.
      apply H. exists q. split; auto. Qed.
