(** The container in double precision: what is stored, and which nodes a lookup finds. *)
From Coq Require Import ZArith Reals Psatz List.
From Flocq Require Import Core BinarySingleNaN.
From Verif Require Import Base BaseFacts CoordSys CellList CellListFacts Float FloatFacts FloatVector FloatVectorFacts NelderMead FloatMin FloatCell SpecFloatCell FloatCellNum.
From Coq Require Import Lra.
Import ListNotations.
Open Scope list_scope.
Open Scope R_scope.

Lemma F2_length {A B} (P : A -> B -> Prop) l m : Forall2 P l m -> length l = length m.
Proof. induction 1; cbn; auto. Qed.
(** ** the cell list, for any assignment of indices *)
Definition icl_good {V} (k : V -> index) (c : cell_list V) : Prop :=
  positive (cl_num c) /\ Forall (fun v => in_range (cl_total c) (k v)) (cl_flat c) /\
  cl_cells c = map (fun i => (i, filter (fun v => eqb i (k v)) (cl_flat c))) (product (map zrange (cl_total c))).
Lemma icl_new V (k : V -> index) num per : positive num ->
  exists c, cl_new V num per = Ok c /\ icl_good k c /\ cl_flat c = [] /\ cl_num c = num /\ cl_periodic c = per.
Proof. intros H. unfold cl_new. replace (forallb (fun n => 0 <? n)%Z num) with true.
  - eexists. split; [reflexivity|]. repeat split; simpl; auto.
  - symmetry. apply forallb_forall. intros n Hn. apply Z.ltb_lt. eapply Forall_forall in H; eauto. Qed.
Lemma icl_add {V} (k : V -> index) (c : cell_list V) f v : icl_good k c -> k v = fget_index c f -> in_range (cl_total c) (k v) ->
  exists c', fadd_point c f v = Ok c' /\ icl_good k c' /\ cl_flat c' = cl_flat c ++ [v] /\ cl_num c' = cl_num c /\ cl_periodic c' = cl_periodic c.
Proof. intros (Hp & Hr & Hc) Ek Hv. unfold fadd_point. rewrite <- Ek, np_index_ok by auto. cbn [bind].
  rewrite Hc, assoc_map by (apply in_range_product; auto). cbn [bind]. eexists. split; [reflexivity|].
  split; [|auto]. unfold icl_good, cl_total in *. cbn [cl_periodic cl_num cl_flat cl_cells].
  split; [auto|]. split; [apply Forall_app; auto|].
  rewrite map_map. apply map_ext. intros i. cbn [fst snd]. rewrite filter_app. simpl. set (j := k v) in *. destruct (eq_dec j i) as [->|N].
  - rewrite !eqb_refl. reflexivity.
  - rewrite (proj2 (eqb_false j i)) by auto. rewrite (proj2 (eqb_false i j)) by auto. rewrite app_nil_r. reflexivity. Qed.
Lemma icl_values {V} (k : V -> index) (c : cell_list V) f : icl_good k c -> length f = length (cl_num c) ->
  exists vs, fget_neighbour_values c f = Ok vs /\ (forall v, In v vs <-> In v (cl_flat c) /\ In (k v) (calculate_neighbour_indices c (fget_index c f))).
Proof. intros (Hp & Hr & Hc) Hf. unfold fget_neighbour_values.
  rewrite (@sequence_map_ok _ _ (get_cell c) (fun i => filter (fun v => eqb i (k v)) (cl_flat c))).
  - cbn [bind]. eexists. split; [reflexivity|]. intros v. rewrite in_concat. split.
    + intros (l & Hl & Hv). apply in_map_iff in Hl as (i & <- & Hi). apply filter_In in Hv as (Hv & E). apply eqb_spec in E. subst. auto.
    + intros (Hv & Hi). eexists. split; [apply in_map; exact Hi|]. apply filter_In. split; auto. apply eqb_refl.
  - intros i Hi. unfold get_cell. apply neighbour_in_range in Hi; auto.
    + rewrite np_index_ok by auto. cbn [bind]. rewrite Hc. apply (assoc_map (fun i => filter _ _)). apply in_range_product; auto.
    + unfold fget_index. rewrite map2_length; auto. Qed.

(** ** coordinates *)
Lemma coord_bound b x : good_box b -> good_coord b x -> fin x /\ Rabs (val x) <= pw 1000.
Proof. intros Gb (Fx & Bx). change (fbox_size b) with (val (fsize (fst b) (snd b))) in Bx. destruct (size_ok b Gb) as (_ & _ & U). destruct Gb as (_ & _ & _ & Bl & _). split; auto.
  assert (A : pw 10 * val (fsize (fst b) (snd b)) <= pw 411) by (change 411%Z with (10 + 401)%Z; rewrite <- pw_mul; apply Rmult_le_compat_l; [left; apply pw_pos|auto]).
  assert (pw 400 <= pw 411) by (apply pw_le; lia). assert (E : pw 412 = 2 * pw 411) by (change 412%Z with (411 + 1)%Z; apply pow_succ). assert (pw 412 <= pw 1000) by (apply pw_le; lia). rewrite abs_le in *. lra. Qed.
Lemma in_box_good b x : good_box b -> in_box b x -> good_coord b x.
Proof. intros Gb (Fx & Vx). split; auto. change (fbox_size b) with (val (fsize (fst b) (snd b))) in *. pose proof (s_pos b Gb) as P. rewrite Rabs_pos_eq by lra.
  change (pw 10) with 1024. lra. Qed.
Lemma normalized_in_box b x : good_box b -> good_coord b x -> in_box b (fnormalize (fst b) (snd b) x).
Proof. intros Gb Gx. destruct (coord_bound b x Gb Gx) as (Fx & Bx). destruct Gb as (Fl & Fh & L & Bl & Bh & Ls). assert (X : pw 400 <= pw 1000) by (apply pw_le; lia).
  destruct (normalize_val (fst b) (snd b) Fl Fh L ltac:(lra) ltac:(lra) x Fx Bx) as (Fn & Vn). pose proof (upper_slack (fst b) (snd b) Fl Fh L ltac:(lra) ltac:(lra)) as U. split; auto. change (fbox_size b) with (val (fsize (fst b) (snd b))). lra. Qed.
Lemma in_box_index b x n : good_box b -> in_box b x -> (1 <= n <= 100)%Z -> (0 <= fcell_index n (fget_frac (fst b) (snd b) x) < n)%Z.
Proof. intros (Fl & Fh & L & Bl & Bh & Ls) (Fx & Vx) Hn. assert (X : pw 400 <= pw 1000) by (apply pw_le; lia).
  destruct (frac_val (fst b) (snd b) Fl Fh L ltac:(lra) ltac:(lra) x Fx Vx) as (Ff & Vf). apply index_range; auto. lia. Qed.

(** a coordinate that can be stored *)
Definition storable (per : bool) (b : fbox) (x : double) : Prop := if per then in_box b x else good_coord b x.
Lemma storable_good per b x : good_box b -> storable per b x -> good_coord b x.
Proof. destruct per; auto. apply in_box_good. Qed.
Lemma normalized_storable per b x : good_box b -> good_coord b x -> storable per b (fnormalize1 per b x).
Proof. intros Gb Gx. destruct per; cbn; auto. apply normalized_in_box; auto. Qed.
Lemma storable_index per b x n : good_box b -> storable per b x -> (1 <= n <= 100)%Z -> let t := if per then n else (n + 2)%Z in (0 <= fget_index1 per n (fget_frac1 per b x) < t)%Z.
Proof. intros Gb H Hn. destruct per; cbn -[fcell_index fcell_index_open fget_frac]; [apply in_box_index; auto|]. unfold fcell_index_open. lia. Qed.

Definition frac_of (per : bool) (boxes : list fbox) (p : fpoint) : fpoint := map2 (fget_frac1 per) boxes p.
Definition num_of (cutoff : double) (boxes : list fbox) : list Z := map (fnum_cells1 cutoff) boxes.
Definition index_of (per : bool) (boxes : list fbox) (cutoff : double) (p : fpoint) : index := map2 (fget_index1 per) (num_of cutoff boxes) (frac_of per boxes p).

Lemma num_pos boxes cutoff : positive (num_of cutoff boxes).
Proof. unfold positive, num_of. apply Forall_map, Forall_forall. intros b _. unfold fnum_cells1. destruct (Beqb _ _); lia. Qed.
Lemma num_range cutoff b : (1 <= fnum_cells1 cutoff b <= 100)%Z.
Proof. unfold fnum_cells1. destruct (Beqb _ _); lia. Qed.
Lemma stored_range per boxes cutoff p : Forall good_box boxes -> Forall2 (storable per) boxes p -> in_range (total_of per (num_of cutoff boxes)) (index_of per boxes cutoff p).
Proof. intros Gb H. unfold in_range, index_of, frac_of, num_of. assert (E : total_of per (map (fnum_cells1 cutoff) boxes) = map (fun b => if per then fnum_cells1 cutoff b else (fnum_cells1 cutoff b + 2)%Z) boxes) by (destruct per; cbn; auto; rewrite map_map; reflexivity).
  rewrite E. clear E. induction H as [|b x boxes p Hx H IH]; cbn [map map2]; constructor; inversion Gb; subst; auto. apply (storable_index per b x); auto. apply num_range. Qed.

(** ** when the stored coordinate [x] is in a cell next to that of [y] *)
Definition near (per : bool) (cutoff : double) (b : fbox) (x y : double) : Prop :=
  (per = true /\ fnum_cells1 cutoff b = 1%Z) \/
  exists k, (per = false -> k = 0%Z) /\ IZR (fnum_cells1 cutoff b) * Rabs (val x - val y - IZR k * val (fsize (fst b) (snd b))) <= val (fsize (fst b) (snd b)) * (1 - pw (-31)).
Lemma near_index per cutoff b x y : good_box b -> storable per b x -> good_coord b y -> near per cutoff b x y ->
  let n := fnum_cells1 cutoff b in exists o, (-1 <= o <= 1)%Z /\
  fget_index1 per n (fget_frac1 per b x) = (if per then (fget_index1 per n (fget_frac1 per b y) + o) mod n else fget_index1 per n (fget_frac1 per b y) + o)%Z.
Proof. intros Gb Sx Gy H n. pose proof (num_range cutoff b) as Hn. fold n in Hn. pose proof (storable_good per b x Gb Sx) as Gx. pose proof (storable_index per b x n Gb Sx Hn) as R. cbv zeta in R. destruct H as [(-> & E1)|(k & Hk & H)].
  - fold n in E1. exists 0%Z. split; [lia|]. cbv zeta. rewrite E1 in R. rewrite !E1. rewrite Z.mod_1_r. lia.
  - fold n in H. destruct per; cbn [fget_index1 fget_frac1] in *.
    + destruct (near_periodic b Gb n Hn x y k Gx Gy H) as (o & Ho & E). exists o. split; auto. rewrite <- E. symmetry. apply Z.mod_small. auto.
    + specialize (Hk eq_refl). subst k. replace (val x - val y - 0 * val (fsize (fst b) (snd b))) with (val x - val y) in H by ring.
      pose proof (near_open b Gb n Hn x y Gx Gy H) as C. eexists. split; [exact C|]. lia. Qed.

Inductive near_all (per : bool) (cutoff : double) : list fbox -> fpoint -> fpoint -> Prop :=
| na_nil : near_all per cutoff [] [] []
| na_cons b x y boxes p q : near per cutoff b x y -> near_all per cutoff boxes p q -> near_all per cutoff (b :: boxes) (x :: p) (y :: q).
Lemma near_neighbour {V} (c : cell_list V) per cutoff boxes p q : cl_periodic c = per -> cl_num c = num_of cutoff boxes ->
  Forall good_box boxes -> Forall2 (storable per) boxes p -> good_position boxes q -> near_all per cutoff boxes p q ->
  In (index_of per boxes cutoff p) (calculate_neighbour_indices c (index_of per boxes cutoff q)).
Proof. intros Ep En Gb Sp Gq H. assert (Lq : length q = length boxes) by (symmetry; exact (F2_length _ _ _ Gq)).
  assert (Li : length (index_of per boxes cutoff q) = length (cl_num c)).
  { rewrite En. unfold index_of, frac_of, num_of. rewrite map2_length; rewrite map_length; auto. rewrite map2_length; auto. }
  apply neighbour_in; auto; [rewrite En; apply num_pos|]. pose proof (stored_range per boxes cutoff p Gb Sp) as Rg. rewrite Li, En, Ep. unfold cl_total. rewrite Ep, En. clear Li Ep En c Lq.
  assert (G : exists os, length os = length (num_of cutoff boxes) /\ Forall (fun o => (-1 <= o <= 1)%Z) os /\
    index_of per boxes cutoff p = (if per then map2 Z.modulo (idx_add (index_of per boxes cutoff q) os) (num_of cutoff boxes) else idx_add (index_of per boxes cutoff q) os)).
  { clear Rg. induction H as [|b x y boxes p q Hn H IH]; [exists []; destruct per; repeat split; auto|].
    inversion Gb; inversion Sp; inversion Gq; subst. destruct IH as (os & L & Ho & E); auto. destruct (near_index per cutoff b x y) as (o & Ho1 & E1); auto.
    exists (o :: os). split; [unfold num_of in *; cbn [map length]; congruence|]. split; [constructor; auto|]. unfold index_of, frac_of, num_of in *. cbn [map map2] in *. rewrite E, E1. destruct per; reflexivity. }
  destruct G as (os & L & Ho & E). exists os. split; auto. split; auto. split; auto. destruct per; auto. Qed.

(** ** histories *)
Definition container_good (per : bool) (boxes : list fbox) (gap cutoff : double) (rs : list dmin_result) (ps : list fpoint) (c : fcontainer) : Prop :=
  fc_per c = per /\ fc_boxes c = boxes /\ fc_gap c = gap /\ fc_cutoff c = cutoff /\
  (cl_periodic (fc_nodes c) = per /\ cl_num (fc_nodes c) = num_of cutoff boxes /\ icl_good (fun r => index_of per boxes cutoff (dr_pos r)) (fc_nodes c) /\
   cl_flat (fc_nodes c) = filter (is_fnode gap) (map (fstored per boxes) rs)) /\
  fc_rejected c = filter (fun r => negb (is_fnode gap r)) (map (fstored per boxes) rs) /\
  (cl_periodic (fc_refined c) = per /\ cl_num (fc_refined c) = num_of cutoff boxes /\ icl_good (index_of per boxes cutoff) (fc_refined c) /\ cl_flat (fc_refined c) = ps).

Section History.
  Variables (per : bool) (boxes : list fbox) (gap cutoff : double).
  Hypothesis Gb : Forall good_box boxes.
  Notation Good := (container_good per boxes gap cutoff).

  Lemma stored_storable r : good_position boxes (dr_pos r) -> Forall2 (storable per) boxes (dr_pos (fstored per boxes r)).
  Proof. cbn [fstored fset_pos dr_pos]. generalize (dr_pos r). clear r. intros p H. induction H as [|b x bs p Hx H IH]; cbn [map2]; constructor; inversion Gb; subst.
    - apply normalized_storable; auto.
    - apply IH; auto. Qed.
  Lemma add_good rs ps c r : Good rs ps c -> good_position boxes (dr_pos r) -> exists c' b, fadd_result c r = Ok (c', b) /\ Good (rs ++ [r]) ps c' /\ b = is_fnode gap (fstored per boxes r).
  Proof. intros (E1 & E2 & E3 & E4 & (N1 & N2 & N3 & N4) & Rj & (R1 & R2 & R3 & R4)) Hr. unfold fadd_result. rewrite E1, E2, E3, E4. fold (fstored per boxes r).
    assert (Ei : negb (dr_success (fstored per boxes r)) || flt gap (dr_value (fstored per boxes r)) = negb (is_fnode gap (fstored per boxes r))) by (unfold is_fnode, flt; destruct (dr_success _), (Bltb _ _); reflexivity).
    rewrite Ei. destruct (is_fnode gap (fstored per boxes r)) eqn:En; cbn [negb].
    - destruct (icl_add _ (fc_nodes c) (map2 (fget_frac1 per) boxes (dr_pos (fstored per boxes r))) (fstored per boxes r) N3) as (n & -> & G & Fl & Nu & Pe).
      + unfold fget_index. rewrite N1, N2. reflexivity.
      + unfold cl_total. rewrite N1, N2. apply stored_range; auto. apply stored_storable; auto.
      + cbn [bind]. do 2 eexists. split; [reflexivity|]. split; auto. unfold container_good. cbn [fc_per fc_boxes fc_gap fc_cutoff fc_nodes fc_rejected fc_refined].
        do 4 (split; [reflexivity|]). split; [|split; [|tauto]].
        * split; [congruence|]. split; [congruence|]. split; auto. rewrite Fl, N4, map_app, filter_app. cbn [map filter]. rewrite En. reflexivity.
        * rewrite Rj, map_app, filter_app. cbn [map filter]. rewrite En. cbn. rewrite app_nil_r. reflexivity.
    - do 2 eexists. split; [reflexivity|]. split; auto. unfold container_good. cbn [fc_per fc_boxes fc_gap fc_cutoff fc_nodes fc_rejected fc_refined].
      do 4 (split; [reflexivity|]). split; [|split; [|tauto]].
      * split; auto. split; auto. split; auto. rewrite N4, map_app, filter_app. cbn [map filter]. rewrite En. rewrite app_nil_r. reflexivity.
      * rewrite Rj, map_app, filter_app. cbn [map filter]. rewrite En. reflexivity. Qed.
  Lemma refined_good rs ps c p : Good rs ps c -> Forall2 (storable per) boxes p -> exists c', fset_refined c p = Ok c' /\ Good rs (ps ++ [p]) c'.
  Proof. intros (E1 & E2 & E3 & E4 & N & Rj & (R1 & R2 & R3 & R4)) Hp. unfold fset_refined. rewrite E1, E2, E3, E4.
    destruct (icl_add _ (fc_refined c) (map2 (fget_frac1 per) boxes p) p R3) as (n & -> & G & Fl & Nu & Pe).
    - unfold fget_index. rewrite R1, R2. reflexivity.
    - unfold cl_total. rewrite R1, R2. apply stored_range; auto.
    - cbn [bind]. eexists. split; [reflexivity|]. unfold container_good. cbn [fc_per fc_boxes fc_gap fc_cutoff fc_nodes fc_rejected fc_refined]. do 4 (split; [reflexivity|]). split; [tauto|]. split; [auto|].
      split; [congruence|]. split; [congruence|]. split; auto. rewrite Fl, R4. reflexivity. Qed.
  Lemma adds_good : forall rs' rs ps c, Good rs ps c -> Forall (fun r => good_position boxes (dr_pos r)) rs' -> exists c', fadd_results c rs' = Ok c' /\ Good (rs ++ rs') ps c'.
  Proof. induction rs' as [|r rs' IH]; intros rs ps c G H; cbn [fadd_results]; [exists c; rewrite app_nil_r; auto|]. inversion H; subst. destruct (add_good rs ps c r G) as (c1 & b & -> & G1 & _); auto. cbn [bind fst].
    destruct (IH _ _ _ G1) as (c2 & E & G2); auto. exists c2. split; auto. rewrite <- app_assoc in G2. exact G2. Qed.
  Lemma refineds_good : forall ps' rs ps c, Good rs ps c -> Forall (Forall2 (storable per) boxes) ps' -> exists c', fset_refineds c ps' = Ok c' /\ Good rs (ps ++ ps') c'.
  Proof. induction ps' as [|p ps' IH]; intros rs ps c G H; cbn [fset_refineds]; [exists c; rewrite app_nil_r; auto|]. inversion H; subst. destruct (refined_good rs ps c p G) as (c1 & -> & G1); auto. cbn [bind].
    destruct (IH _ _ _ G1) as (c2 & E & G2); auto. exists c2. split; auto. rewrite <- app_assoc in G2. exact G2. Qed.
  Lemma new_good rs ps : Forall (fun r => good_position boxes (dr_pos r)) rs -> Forall (Forall2 (storable per) boxes) ps -> exists c, fcontainer_new per boxes gap cutoff rs ps = Ok c /\ Good rs ps c.
  Proof. intros Hr Hp. unfold fcontainer_new. fold (num_of cutoff boxes). destruct (icl_new dmin_result (fun r => index_of per boxes cutoff (dr_pos r)) (num_of cutoff boxes) per (num_pos boxes cutoff)) as (n & -> & Gn & Fn & Nn & Pn).
    destruct (icl_new fpoint (index_of per boxes cutoff) (num_of cutoff boxes) per (num_pos boxes cutoff)) as (m & -> & Gm & Fm & Nm & Pm). cbn [bind].
    set (c0 := mk_fcontainer per boxes gap cutoff n [] m). assert (G0 : Good [] [] c0) by (unfold container_good, c0; cbn; repeat split; auto; try apply Gn; apply Gm).
    destruct (adds_good rs [] [] c0 G0 Hr) as (c1 & -> & G1). cbn [bind]. destruct (refineds_good ps rs [] c1 G1 Hp) as (c2 & -> & G2). exists c2. auto. Qed.

  Lemma history_good rs ps c : fhistory per boxes gap cutoff rs ps c -> Forall (fun r => good_position boxes (dr_pos r)) rs -> Forall (Forall2 (storable per) boxes) ps -> Good rs ps c.
  Proof. intros H. induction H as [rs ps c E|rs ps c r c' b H IH E|rs ps c p c' H IH E]; intros Hr Hp.
    - destruct (new_good rs ps Hr Hp) as (c1 & E1 & G). congruence.
    - apply Forall_app in Hr as (Hr & Hr1). inversion Hr1; subst. destruct (add_good rs ps c r) as (c1 & b1 & E1 & G & _); auto. congruence.
    - apply Forall_app in Hp as (Hp & Hp1). inversion Hp1; subst. destruct (refined_good rs ps c p) as (c1 & E1 & G); auto. congruence. Qed.

  (** the values found in the neighbouring cells *)
  Lemma lookup_nodes rs ps c q : Good rs ps c -> good_position boxes q -> exists ns, fget_neighbours c q = Ok ns /\
    (forall r, In r ns <-> In r (filter (is_fnode gap) (map (fstored per boxes) rs)) /\ fpos_neq (dr_pos r) q = true /\
       In (index_of per boxes cutoff (dr_pos r)) (calculate_neighbour_indices (fc_nodes c) (index_of per boxes cutoff q))).
  Proof. intros (E1 & E2 & E3 & E4 & (N1 & N2 & N3 & N4) & _) Gq. unfold fget_neighbours. rewrite E1, E2. assert (Lq : length q = length boxes) by (symmetry; exact (F2_length _ _ _ Gq)).
    destruct (icl_values _ (fc_nodes c) (map2 (fget_frac1 per) boxes q) N3) as (vs & -> & Hv); [rewrite N2; unfold num_of; rewrite map_length, map2_length; auto|].
    cbn [bind]. eexists. split; [reflexivity|]. intros r. rewrite filter_In, Hv, N4. unfold fget_index. rewrite N1, N2. fold (frac_of per boxes q). fold (index_of per boxes cutoff q). tauto. Qed.
  Lemma lookup_refined rs ps c q : Good rs ps c -> good_position boxes q -> exists ns, fget_neighbour_values (fc_refined c) (map2 (fget_frac1 per) boxes q) = Ok ns /\
    (forall p, In p ns <-> In p ps /\ In (index_of per boxes cutoff p) (calculate_neighbour_indices (fc_refined c) (index_of per boxes cutoff q))).
  Proof. intros (E1 & E2 & E3 & E4 & _ & _ & (N1 & N2 & N3 & N4)) Gq. assert (Lq : length q = length boxes) by (symmetry; exact (F2_length _ _ _ Gq)).
    destruct (icl_values _ (fc_refined c) (map2 (fget_frac1 per) boxes q) N3) as (vs & E & Hv); [rewrite N2; unfold num_of; rewrite map_length, map2_length; auto|].
    exists vs. split; auto. intros p. rewrite Hv, N4. unfold fget_index. rewrite N1, N2. fold (frac_of per boxes q). fold (index_of per boxes cutoff q). tauto. Qed.

  (** ** close positions are near *)
  Hypothesis Gc : good_cutoff cutoff.
  Hypothesis Hs : per = true \/ Forall (fun b => B2R cutoff <= fbox_size b) boxes.

  Lemma near_of_bound b x y k : good_box b -> (per = true \/ val cutoff <= val (fsize (fst b) (snd b))) -> (per = false -> k = 0%Z) ->
    Rabs (val x - val y - IZR k * val (fsize (fst b) (snd b))) <= val cutoff * (1 - pw (-30)) * (1 + pw (-50)) + pw (-500) + pw (-40) * val (fsize (fst b) (snd b)) -> near per cutoff b x y.
  Proof. intros G1 H1 Hk H. destruct Gc as (Fc & Vc). destruct (num_cells_val b cutoff G1 Fc Vc) as (Hn & Hb). destruct (size_ok b G1) as (_ & Ls & _). pose proof (s_pos b G1) as Ps. unfold near. set (n := fnum_cells1 cutoff b) in *. set (s := val (fsize (fst b) (snd b))) in *.
    destruct (Z.eq_dec n 1) as [E|N]; [destruct H1 as [H1|H1]; [left; auto|]|]; right; exists k; (split; [auto|]).
    all: assert (B : IZR n * val cutoff <= s * (1 + pw (-51))) by (apply Hb; first [right; exact H1|left; lia]); clear Hb.
    all: assert (Nn : 1 <= IZR n <= 100) by (split; [apply (IZR_le 1)|apply (IZR_le n 100)]; lia).
    all: assert (T : pw (-500) <= pw (-40) * s) by (apply Rle_trans with (pw (-40) * pw (-400)); [rewrite pw_mul; apply pw_le; lia|apply Rmult_le_compat_l; [left; apply pw_pos|auto]]).
    all: assert (A : IZR n * Rabs (val x - val y - IZR k * s) <= IZR n * val cutoff * ((1 - pw (-30)) * (1 + pw (-50))) + 200 * (pw (-40) * s))
      by (apply Rle_trans with (IZR n * (val cutoff * (1 - pw (-30)) * (1 + pw (-50)) + pw (-500) + pw (-40) * s)); [apply Rmult_le_compat_l; lra|]; assert (IZR n * (pw (-500) + pw (-40) * s) <= 100 * (2 * (pw (-40) * s))) by (apply Rmult_le_compat; try lra; pose proof (pw_pos (-500)); assert (0 < pw (-40) * s) by (apply Rmult_lt_0_compat; auto using pw_pos); lra); lra).
    all: eapply Rle_trans; [exact A|].
    all: assert (E1 : pw (-30) = 1024 * pw (-40)) by (change 1024 with (pw 10); rewrite pw_mul; reflexivity); assert (E2 : pw (-31) = 512 * pw (-40)) by (change 512 with (pw 9); rewrite pw_mul; reflexivity).
    all: assert (E3 : pw (-50) = / 1024 * pw (-40)) by (change (/ 1024) with (pw (-10)); rewrite pw_mul; reflexivity); assert (E4 : pw (-51) = / 2048 * pw (-40)) by (change (/ 2048) with (pw (-11)); rewrite pw_mul; reflexivity).
    all: assert (U : pw (-40) <= / 1048576) by (change (/ 1048576) with (pw (-20)); apply pw_le; lia); pose proof (pw_pos (-40)) as P40.
    all: rewrite E1, E2, E3 in *; rewrite E4 in B; clear E1 E2 E3 E4 A T H Vc; revert B U P40; generalize (pw (-40)); intros u B U P40.
    all: assert (W0 : 0 <= (1 - 1024 * u) * (1 + / 1024 * u)) by (apply Rmult_le_pos; lra).
    all: apply Rle_trans with (s * (1 + / 2048 * u) * ((1 - 1024 * u) * (1 + / 1024 * u)) + 200 * (u * s)); [apply Rplus_le_compat_r, Rmult_le_compat_r; auto|].
    all: assert (W : (1 + / 2048 * u) * ((1 - 1024 * u) * (1 + / 1024 * u)) + 200 * u <= 1 - 512 * u) by nra.
    all: replace (s * (1 + / 2048 * u) * ((1 - 1024 * u) * (1 + / 1024 * u)) + 200 * (u * s)) with (s * ((1 + / 2048 * u) * ((1 - 1024 * u) * (1 + / 1024 * u)) + 200 * u)) by ring; apply Rmult_le_compat_l; lra. Qed.
End History.
