(** Facts about the cell list. *)
From Verif Require Import Base BaseFacts CoordSys SpecGeom CoordSysFacts CellList.
Open Scope Z_scope.

Arguments get_index1 : simpl never.

(** ** lists *)
Lemma sequence_map_ok {A B} (f : A -> res B) (g : A -> B) l :
  (forall a, In a l -> f a = Ok (g a)) -> sequence (map f l) = Ok (map g l).
Proof. induction l as [|a l IH]; simpl; intros H; auto. rewrite H by auto. rewrite IH by auto. reflexivity. Qed.
Lemma in_product {A} (ls : list (list A)) x : In x (product ls) <-> Forall2 (fun a l => In a l) x ls.
Proof. revert x. induction ls as [|l ls IH]; simpl; intros x.
  - split; [intros [<-|[]]; constructor | inversion 1; auto].
  - rewrite in_flat_map. split.
    + intros (a & Ha & H). apply in_map_iff in H as (y & <- & Hy). constructor; auto. apply IH; auto.
    + inversion 1; subst. eexists; split; eauto. apply in_map. apply IH; auto. Qed.
Lemma NoDup_app_intro {A} (l m : list A) : NoDup l -> NoDup m -> (forall x, In x l -> ~ In x m) -> NoDup (l ++ m).
Proof. induction l as [|a l IH]; simpl; auto. intros Hl Hm H. inversion Hl; subst. constructor.
  - rewrite in_app_iff. intros [|]; [auto|]. eapply H; eauto.
  - apply IH; auto. Qed.
Lemma NoDup_map_inj {A B} (f : A -> B) l : (forall x y, In x l -> In y l -> f x = f y -> x = y) ->
  NoDup l -> NoDup (map f l).
Proof. induction l as [|a l IH]; simpl; intros Hf Hl; constructor; inversion Hl; subst.
  - rewrite in_map_iff. intros (x & E & Hx). apply Hf in E; auto. subst. auto.
  - apply IH; auto. Qed.
Lemma NoDup_product {A} (ls : list (list A)) : Forall (@NoDup A) ls -> NoDup (product ls).
Proof. induction 1 as [|l ls Hl Hls IH]; simpl; [repeat constructor; auto|].
  induction Hl as [|a l Ha Hl IHl]; simpl; [constructor|]. apply NoDup_app_intro; auto.
  - apply NoDup_map_inj; auto. congruence.
  - intros x Hx Hy. apply in_map_iff in Hx as (y & <- & _). apply in_flat_map in Hy as (b & Hb & Hy).
    apply in_map_iff in Hy as (z & E & _). congruence. Qed.
Lemma in_zrange n i : In i (zrange n) <-> 0 <= i < n.
Proof. unfold zrange. rewrite in_map_iff. split.
  - intros (k & <- & Hk). apply in_seq in Hk. lia.
  - intros H. exists (Z.to_nat i). rewrite in_seq. lia. Qed.
Lemma NoDup_zrange n : NoDup (zrange n).
Proof. apply NoDup_map_inj; [intros; lia | apply seq_NoDup]. Qed.

(** ** indices *)
Definition in_range (total idx : list Z) : Prop := Forall2 (fun t i => 0 <= i < t) total idx.
Lemma in_range_product total idx : In idx (product (map zrange total)) <-> in_range total idx.
Proof. rewrite in_product. unfold in_range. revert idx.
  induction total as [|t total IH]; simpl; intros idx; split; inversion 1; subst; constructor; try apply IH; auto;
  apply in_zrange; auto. Qed.
Lemma NoDup_indices total : NoDup (product (map zrange total)).
Proof. apply NoDup_product. induction total; simpl; constructor; auto using NoDup_zrange. Qed.

Lemma np_index_ok {V} (c : cell_list V) idx : in_range (cl_total c) idx -> np_index c idx = Ok idx.
Proof. unfold np_index, in_range. generalize (cl_total c) as total. intros total H.
  induction H as [|t i total idx Hi H IH]; simpl; auto. unfold np_index1 at 1.
  destruct (Z.leb_spec 0 i), (Z.ltb_spec i t); try lia. simpl. rewrite IH. reflexivity. Qed.

Lemma assoc_map {V} (f : index -> list V) i l : In i l -> assoc i (map (fun i => (i, f i)) l) = Ok (f i).
Proof. induction l as [|j l IH]; simpl; intros H; [easy|]. unfold eqb. destruct (eq_dec i j); subst; auto.
  apply IH. destruct H; congruence. Qed.

(** ** representation invariant: every cell holds, in insertion order, the
    stored values whose key has that index *)
Definition positive (num : list Z) : Prop := Forall (fun n => 0 < n) num.
Definition cl_good {V} (key : V -> point) (c : cell_list V) : Prop :=
  positive (cl_num c) /\
  Forall (fun v => in_range (cl_total c) (get_index c (key v))) (cl_flat c) /\
  cl_cells c = map (fun i => (i, filter (fun v => eqb i (get_index c (key v))) (cl_flat c)))
                   (product (map zrange (cl_total c))).

Lemma cl_new_ok V (key : V -> point) num per : positive num ->
  exists c, cl_new V num per = Ok c /\ cl_good key c /\ cl_flat c = [] /\ cl_num c = num /\ cl_periodic c = per.
Proof. intros H. unfold cl_new. replace (forallb (fun n => 0 <? n) num) with true.
  - eexists. split; [reflexivity|]. repeat split; simpl; auto.
  - symmetry. apply forallb_forall. intros n Hn. apply Z.ltb_lt. eapply Forall_forall in H; eauto. Qed.

Lemma add_point_ok {V} (key : V -> point) (c : cell_list V) v : cl_good key c ->
  in_range (cl_total c) (get_index c (key v)) ->
  exists c', add_point c (key v) v = Ok c' /\ cl_good key c' /\
    cl_flat c' = cl_flat c ++ [v] /\ cl_num c' = cl_num c /\ cl_periodic c' = cl_periodic c.
Proof. intros (Hp & Hr & Hc) Hv. unfold add_point. rewrite np_index_ok by auto. cbn [bind].
  rewrite Hc, assoc_map by (apply in_range_product; auto). cbn [bind]. eexists. split; [reflexivity|].
  split; [|auto]. unfold cl_good, cl_total, get_index in *. cbn [cl_periodic cl_num cl_flat cl_cells].
  split; [auto|]. split; [apply Forall_app; auto|].
  rewrite map_map. apply map_ext. intros i. cbn [fst snd]. rewrite filter_app. simpl.
  set (k := map2 _ _ _). destruct (eq_dec k i) as [->|N].
  - rewrite !eqb_refl. reflexivity.
  - rewrite (proj2 (eqb_false k i)) by auto. rewrite (proj2 (eqb_false i k)) by auto.
    rewrite app_nil_r. reflexivity. Qed.

(** ** neighbour indices *)
Definition adj1 (per : bool) (t i j : Z) : Prop :=
  0 <= j < t /\ exists o, -1 <= o <= 1 /\ j = if per then (i + o) mod t else i + o.

Lemma offsets_in n o : In o (neighbour_offsets n) <-> length o = n /\ Forall (fun x => -1 <= x <= 1) o.
Proof. unfold neighbour_offsets. rewrite in_product. revert o. induction n; simpl; intros o.
  - split; [inversion 1; auto|]. intros [H _]. destruct o; [constructor|discriminate].
  - split.
    + inversion 1 as [|x l o' ls Hx Ho]; subst. apply IHn in Ho as [<- Ho]. split; auto. constructor; auto.
      simpl in Hx. lia.
    + intros [H1 H2]. destruct o as [|x o]; [discriminate|]. inversion H2; subst. constructor.
      * simpl. lia.
      * apply IHn. simpl in H1. auto. Qed.
Lemma NoDup_offsets n : NoDup (neighbour_offsets n).
Proof. apply NoDup_product. induction n; simpl; constructor; auto. repeat constructor; simpl; lia. Qed.

Lemma total_length per num : length (total_of per num) = length num.
Proof. destruct per; simpl; auto. apply map_length. Qed.
Lemma total_pos per num : positive num -> positive (total_of per num).
Proof. destruct per; simpl; auto. unfold positive. induction 1; simpl; constructor; auto. lia. Qed.

Lemma neighbour_in {V} (c : cell_list V) idx j : positive (cl_num c) -> length idx = length (cl_num c) ->
  (In j (calculate_neighbour_indices c idx) <->
   exists os, length os = length idx /\ Forall (fun o => -1 <= o <= 1) os /\
     in_range (cl_total c) j /\
     j = (if cl_periodic c then map2 Z.modulo (idx_add idx os) (cl_total c) else idx_add idx os)).
Proof. intros Hp Hl. unfold calculate_neighbour_indices. 
  assert (Lt : length (cl_total c) = length idx) by (unfold cl_total; rewrite total_length; auto).
  pose proof (total_pos (cl_periodic c) _ Hp) as Ht. fold (cl_total c) in Ht.
  destruct (cl_periodic c) eqn:Per.
  - rewrite in_map_iff. split.
    + intros (x & <- & Hx). apply in_map_iff in Hx as (os & <- & Ho). apply offsets_in in Ho as [Lo Ho].
      exists os. split; [congruence|]. split; auto. split; auto.
      unfold in_range, idx_add. assert (Lo' : length os = length idx) by congruence. clear - Lt Lo' Ht. revert idx os Lt Lo'.
      induction (cl_total c) as [|t tot IH]; destruct idx, os; simpl; intros; try lia; constructor.
      * inversion Ht; subst. apply Z.mod_pos_bound; auto.
      * inversion Ht; subst. apply IH; auto.
    + intros (os & Lo & Ho & Hr & ->). eexists. split; [reflexivity|]. apply in_map_iff. exists os.
      split; auto. apply offsets_in. split; auto; congruence.
  - rewrite filter_In, in_map_iff. split.
    + intros ((os & <- & Ho) & Hb). apply offsets_in in Ho as [Lo Ho]. exists os. split; [congruence|]. split; auto.
      split; auto. apply andb_true_iff in Hb as [B1 B2].
      assert (Li : length (idx_add idx os) = length (cl_total c)).
      { unfold idx_add. rewrite map2_length; congruence. }
      revert B1 B2 Li. generalize (idx_add idx os) as x. generalize (cl_total c) as tot. clear.
      unfold in_range. induction tot as [|t tot IH]; destruct x; simpl; intros B1 B2 L; try lia; constructor;
      apply andb_true_iff in B1 as [? ?]; apply andb_true_iff in B2 as [? ?]; [lia|apply IH; auto].
    + intros (os & Lo & Ho & Hr & ->). split.
      * exists os. split; auto. apply offsets_in. split; auto; congruence.
      * revert Hr. generalize (idx_add idx os) as x. generalize (cl_total c) as tot. clear. unfold in_range.
        induction 1 as [|t i tot x H Hr IH]; simpl; auto. apply andb_true_iff in IH as [I1 I2].
        rewrite I1, I2. destruct (Z.leb_spec 0 i), (Z.ltb_spec i t); auto; lia. Qed.

Lemma neighbour_in_range {V} (c : cell_list V) idx j : positive (cl_num c) -> length idx = length (cl_num c) ->
  In j (calculate_neighbour_indices c idx) -> in_range (cl_total c) j.
Proof. intros Hp Hl H. apply neighbour_in in H as (os & _ & _ & H & _); auto. Qed.

Lemma get_cell_ok {V} key (c : cell_list V) i : cl_good key c -> in_range (cl_total c) i ->
  get_cell c i = Ok (filter (fun v => eqb i (get_index c (key v))) (cl_flat c)).
Proof. intros (Hp & Hr & Hc) Hi. unfold get_cell. rewrite np_index_ok by auto. cbn [bind]. rewrite Hc.
  apply (assoc_map (fun i => filter _ _)). apply in_range_product; auto. Qed.

Lemma get_index_length {V} (c : cell_list V) f : length f = length (cl_num c) -> length (get_index c f) = length (cl_num c).
Proof. intros. unfold get_index. rewrite map2_length; auto. Qed.

Lemma get_neighbour_values_ok {V} key (c : cell_list V) f : cl_good key c -> length f = length (cl_num c) ->
  get_neighbour_values c f =
  Ok (concat (map (fun i => filter (fun v => eqb i (get_index c (key v))) (cl_flat c))
                  (calculate_neighbour_indices c (get_index c f)))).
Proof. intros Hg Hf. unfold get_neighbour_values.
  rewrite (@sequence_map_ok _ _ (get_cell c) (fun i => filter (fun v => eqb i (get_index c (key v))) (cl_flat c))).
  - reflexivity.
  - intros i Hi. apply get_cell_ok; auto. apply neighbour_in_range in Hi; auto; [apply Hg|].
    apply get_index_length; auto. Qed.

Lemma in_neighbour_values {V} key (c : cell_list V) f vs v : cl_good key c -> length f = length (cl_num c) ->
  get_neighbour_values c f = Ok vs ->
  (In v vs <-> In v (cl_flat c) /\ In (get_index c (key v)) (calculate_neighbour_indices c (get_index c f))).
Proof. intros Hg Hf E. rewrite (get_neighbour_values_ok key) in E by auto. injection E as <-.
  rewrite in_concat. split.
  - intros (l & Hl & Hv). apply in_map_iff in Hl as (i & <- & Hi). apply filter_In in Hv as [Hv Ei].
    apply eqb_spec in Ei. subst. auto.
  - intros [Hv Hi]. eexists. split; [apply in_map_iff; eexists; split; [reflexivity|exact Hi]|].
    apply filter_In. rewrite eqb_refl. auto. Qed.

(** ** multiplicity *)
Lemma map2_add_inj x o o' : length o = length x -> length o' = length x -> idx_add x o = idx_add x o' -> o = o'.
Proof. unfold idx_add. revert o o'. induction x as [|a x IH]; destruct o, o'; simpl; intros; try lia; auto.
  injection H1. intros E1 E2. f_equal; [lia|]. apply IH; auto. Qed.
Lemma mod_offset_inj t a x y : 3 <= t -> -1 <= x <= 1 -> -1 <= y <= 1 -> (a + x) mod t = (a + y) mod t -> x = y.
Proof. intros Ht Hx Hy E. pose proof (Z.div_mod (a + x) t). pose proof (Z.div_mod (a + y) t).
  assert (x - y = t * ((a + x) / t - (a + y) / t)) by lia.
  assert ((a + x) / t - (a + y) / t = 0) by nia. lia. Qed.
Lemma NoDup_neighbours {V} (c : cell_list V) idx : length idx = length (cl_num c) ->
  (cl_periodic c = true -> Forall (fun n => 3 <= n) (cl_num c)) ->
  NoDup (calculate_neighbour_indices c idx).
Proof. intros Hl H3. unfold calculate_neighbour_indices. destruct (cl_periodic c) eqn:Per.
  - rewrite map_map. apply NoDup_map_inj; [|apply NoDup_offsets].
    intros o o' Ho Ho'. apply offsets_in in Ho as [Lo Ho]. apply offsets_in in Ho' as [Lo' Ho'].
    unfold cl_total, total_of. rewrite Per. specialize (H3 eq_refl). unfold idx_add.
    revert idx o o' Hl Lo Lo' Ho Ho'. induction (cl_num c) as [|t num IH]; destruct idx, o, o'; simpl; intros; try lia; auto.
    inversion Ho; inversion Ho'; inversion H3 as [|? ? T3 H3']; subst. injection H. intros E1 E2.
    apply mod_offset_inj in E2; auto. f_equal; auto. apply (IH H3' idx); auto.
  - apply NoDup_filter. apply NoDup_map_inj; [|apply NoDup_offsets].
    intros o o' Ho Ho'. apply offsets_in in Ho as [Lo Ho]. apply offsets_in in Ho' as [Lo' Ho'].
    apply map2_add_inj; congruence. Qed.

Lemma filter_split_perm {A} (f : A -> bool) l : Permutation (filter f l ++ filter (fun x => negb (f x)) l) l.
Proof. induction l as [|a l IH]; simpl; auto. destruct (f a); simpl; auto.
  rewrite <- Permutation_middle. auto. Qed.
Lemma concat_cells_perm {V} (k : V -> index) (vs : list V) idxs : NoDup idxs ->
  Permutation (concat (map (fun i => filter (fun v => eqb i (k v)) vs) idxs))
              (filter (fun v => mem (k v) idxs) vs).
Proof. induction 1 as [|i idxs Hi Hn IH]; simpl.
  - induction vs; simpl; auto.
  - rewrite IH. clear IH. induction vs as [|v vs IHv]; simpl; auto.
    destruct (eq_dec i (k v)) as [->|N].
    + rewrite !eqb_refl. simpl. rewrite (proj2 (mem_false (k v) idxs)) by auto. apply perm_skip. auto.
    + rewrite (proj2 (eqb_false i (k v))) by auto. rewrite (proj2 (eqb_false (k v) i)) by auto. simpl.
      change (existsb (eqb (k v)) idxs) with (mem (k v) idxs).
      destruct (mem (k v) idxs) eqn:E; auto. rewrite <- Permutation_middle. apply perm_skip. auto. Qed.

Lemma neighbour_values_multiplicity {V} key (c : cell_list V) f vs : cl_good key c -> length f = length (cl_num c) ->
  (cl_periodic c = true -> Forall (fun n => 3 <= n) (cl_num c)) ->
  get_neighbour_values c f = Ok vs -> exists rest, Permutation (vs ++ rest) (cl_flat c).
Proof. intros Hg Hf H3 E. rewrite (get_neighbour_values_ok key) in E by auto. injection E as <-.
  set (idxs := calculate_neighbour_indices _ _).
  exists (filter (fun v => negb (mem (get_index c (key v)) idxs)) (cl_flat c)).
  rewrite (concat_cells_perm (fun v => get_index c (key v))); [apply filter_split_perm|].
  apply NoDup_neighbours; auto. apply get_index_length; auto. Qed.
