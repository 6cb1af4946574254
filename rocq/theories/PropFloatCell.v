(** C62: neighbour lookup in double precision. *)
From Coq Require Import ZArith Reals Psatz List.
From Flocq Require Import Core BinarySingleNaN.
From Verif Require Import Base BaseFacts CoordSys CellList Float FloatFacts FloatVector FloatVectorFacts NelderMead FloatMin FloatCell SpecFloatCell FloatCellNum FloatCellFacts.
From Coq Require Import Lra.
Import ListNotations.
Open Scope list_scope.
Open Scope R_scope.

(** ** helper lemmas: close positions are in neighbouring cells *)
Section Near.
  Variables (per : bool) (cutoff : double).
  Hypothesis Gc : good_cutoff cutoff.
  Definition cutoff_fits (boxes : list fbox) : Prop := per = true \/ Forall (fun b => B2R cutoff <= fbox_size b) boxes.
  Lemma fits_head b boxes : cutoff_fits (b :: boxes) -> (per = true \/ val cutoff <= val (fsize (fst b) (snd b))) /\ cutoff_fits boxes.
  Proof. intros [H|H]; [split; left; auto|]. inversion H; subst. split; [right; auto|right; auto]. Qed.

  Definition deltas (boxes : list fbox) (q p : fpoint) : list double := if per then per_coordinate fdelta boxes q p else map2 fsub p q.
  Lemma fdist_deltas boxes q p : fdist per boxes q p = fnorm (deltas boxes q p).
  Proof. unfold fdist, deltas, fdistance. destruct per; reflexivity. Qed.
  Lemma deltas_bound : forall boxes p q, Forall good_box boxes -> Forall2 good_coord boxes p -> Forall2 good_coord boxes q -> Forall (fun x => fin x /\ Rabs (val x) <= pw 413) (deltas boxes q p).
  Proof. intros boxes p q Gb Hp. revert q. unfold deltas. induction Hp as [|b x boxes p Hx Hp IH]; intros q Hq; inversion Hq as [|? y ? q' Hy Hq']; subst; [destruct per; constructor|]. inversion Gb; subst.
    specialize (IH ltac:(auto) q' ltac:(auto)). destruct per; cbn [per_coordinate combine map map2 fst snd]; constructor; auto.
    - destruct (delta_val b y x) as (A & B & _); auto.
    - destruct (size_ok b) as (Fs & Ls & Us); auto. destruct Hx as (Fx & Bx), Hy as (Fy & By). change (fbox_size b) with (val (fsize (fst b) (snd b))) in *. set (s := val (fsize (fst b) (snd b))) in *.
      assert (E : pw 11 * s = 2 * (pw 10 * s)) by (change 11%Z with (10 + 1)%Z; rewrite pow_succ; ring). assert (B : Rabs (val x - val y) <= pw 11 * s) by (rewrite abs_le in *; lra).
      destruct (diff_val b ltac:(auto) x y Fx Fy B) as (Fd & Ed). fold s in Ed. split; auto.
      assert (U : pw 11 * s <= pw 412) by (change 412%Z with (11 + 401)%Z; rewrite <- pw_mul; apply Rmult_le_compat_l; [left; apply pw_pos|auto]). assert (E2 : pw 413 = 2 * pw 412) by (change 413%Z with (412 + 1)%Z; apply pow_succ).
      assert (P : 0 < s) by (apply (s_pos b); auto). assert (pw (-41) * s <= pw 11 * s) by (apply Rmult_le_compat_r; [lra|apply pw_le; lia]). rewrite abs_le in *. lra. Qed.
  Lemma near_deltas D : D <= val cutoff * (1 - pw (-30)) -> forall boxes p q, Forall good_box boxes -> cutoff_fits boxes -> Forall2 good_coord boxes p -> Forall2 good_coord boxes q ->
    Forall (fun x => Rabs (val x) <= D * (1 + pw (-50)) + pw (-500)) (deltas boxes q p) -> near_all per cutoff boxes p q.
  Proof. intros HD boxes p q Gb Hf Hp. revert q. unfold deltas. assert (P : 0 <= 1 + pw (-50)) by (pose proof (pw_pos (-50)); lra).
    induction Hp as [|b x boxes p Hx Hp IH]; intros q Hq Hd; inversion Hq as [|? y ? q' Hy Hq']; subst; [constructor|]. inversion Gb; subst.
    destruct (fits_head _ _ Hf) as (F1 & F2). assert (DD : D * (1 + pw (-50)) <= val cutoff * (1 - pw (-30)) * (1 + pw (-50))) by (apply Rmult_le_compat_r; auto).
    assert (Q : near per cutoff b x y /\ Forall (fun x => Rabs (val x) <= D * (1 + pw (-50)) + pw (-500)) (if per then per_coordinate fdelta boxes q' p else map2 fsub p q')).
    { destruct per eqn:Ep; cbn [per_coordinate combine map map2 fst snd] in Hd; inversion Hd as [|? ? D1 D2]; subst; (split; [|auto]).
      - destruct (delta_val b y x) as (A & B & k & C); auto. apply (near_of_bound true cutoff Gc) with (k := k); auto; [discriminate|]. cbn [fst snd] in D1.  lra.
      - apply (near_of_bound false cutoff Gc) with (k := 0%Z); auto. replace (val x - val y - 0 * val (fsize (fst b) (snd b))) with (val x - val y) by ring.
        destruct Hx as (Fx & Bx), Hy as (Fy & By). change (fbox_size b) with (val (fsize (fst b) (snd b))) in *. set (s := val (fsize (fst b) (snd b))) in *.
        assert (E : pw 11 * s = 2 * (pw 10 * s)) by (change 11%Z with (10 + 1)%Z; rewrite pow_succ; ring). assert (B : Rabs (val x - val y) <= pw 11 * s) by (rewrite abs_le in *; lra).
        destruct (diff_val b ltac:(auto) x y Fx Fy B) as (Fd & Ed). fold s in Ed. assert (Ps : 0 < s) by (apply (s_pos b); auto). assert (pw (-41) * s <= pw (-40) * s) by (apply Rmult_le_compat_r; [lra|apply pw_le; lia]). rewrite abs_le in *. lra. }
    destruct Q. constructor; auto. Qed.
  Lemma near_computed boxes p q : (length boxes <= 64)%nat -> Forall good_box boxes -> cutoff_fits boxes -> Forall2 good_coord boxes p -> Forall2 good_coord boxes q ->
    fin (fdist per boxes q p) /\ (val (fdist per boxes q p) <= val cutoff * (1 - pw (-30)) -> near_all per cutoff boxes p q).
  Proof. intros Ll Gb Hf Hp Hq. rewrite fdist_deltas. pose proof (deltas_bound boxes p q Gb Hp Hq) as B. pose proof (F2_length _ _ _ Hp) as L1. pose proof (F2_length _ _ _ Hq) as L2.
    destruct (norm_lower (deltas boxes q p)) as (F & _ & C); auto.
    - unfold deltas, per_coordinate. destruct per; [rewrite map_length, !combine_length; lia|rewrite map2_length; lia].
    - split; auto. intros H. apply (near_deltas _ H); auto. Qed.
  Lemma image_nonneg : forall boxes p q ks, 0 <= image_dist_sq boxes p q ks.
  Proof. induction boxes as [|b boxes IH]; intros [|x p] [|y q] [|k ks]; cbn -[pow]; try lra. specialize (IH p q ks). pose proof (pow2_ge_0 (B2R x - B2R y - IZR k * fbox_size b)). lra. Qed.
  Lemma near_true boxes p q d : d <= val cutoff * (1 - pw (-30)) -> 0 <= d -> Forall good_box boxes -> cutoff_fits boxes -> Forall2 good_coord boxes p -> Forall2 good_coord boxes q -> within_dist per boxes p q d -> near_all per cutoff boxes p q.
  Proof. intros Hd D0 Gb Hf Hp Hq (ks & Lk & Hk & H). revert q ks Hq Lk Hk H. induction Hp as [|b x boxes p Hx Hp IH]; intros q ks Hq Lk Hk H; inversion Hq as [|? y ? q' Hy Hq']; subst; [constructor|].
    destruct ks as [|k ks]; [discriminate|]. inversion Gb; subst. destruct (fits_head _ _ Hf) as (F1 & F2). cbn [image_dist_sq] in H. pose proof (image_nonneg boxes p q' ks) as N. pose proof (pow2_ge_0 (B2R x - B2R y - IZR k * fbox_size b)) as N1. constructor.
    - apply (near_of_bound per cutoff Gc) with (k := k); auto; [intros E; specialize (Hk E); inversion Hk; auto|]. change (fbox_size b) with (val (fsize (fst b) (snd b))) in *. set (z := val x - val y - IZR k * val (fsize (fst b) (snd b))) in *.
      assert (A : Rabs z <= d). { apply (Rsqr_incr_0 (Rabs z) d); auto using Rabs_pos. rewrite <- Rsqr_abs. unfold Rsqr. replace (z * z) with (z ^ 2) by ring. replace (d * d) with (d ^ 2) by ring. lra. }
      pose proof (pw_pos (-500)). pose proof (pw_pos (-50)). assert (Ps : 0 < pw (-40) * val (fsize (fst b) (snd b))) by (apply Rmult_lt_0_compat; [apply pw_pos|apply (s_pos b); auto]). eapply Rle_trans; [exact A|]. eapply Rle_trans; [exact Hd|]. assert (0 <= val cutoff * (1 - pw (-30)) * pw (-50)) by (apply Rmult_le_pos; lra). lra.
    - assert (Lk' : length ks = length boxes) by (cbn [length] in Lk; congruence). assert (Hk' : per = false -> Forall (fun k => k = 0%Z) ks) by (intros E; specialize (Hk E); inversion Hk; auto). assert (H' : image_dist_sq boxes p q' ks <= d ^ 2) by lra.
      apply (IH ltac:(auto) F2 q' ks); auto. Qed.
End Near.
Lemma differ_neq p q : Forall (fun x => fin x) p -> Forall (fun x => fin x) q -> differ p q -> fpos_neq p q = true.
Proof. intros Fp Fq (i & x & y & Ex & Ey & N). revert q Fq i Ex Ey. induction Fp as [|u p Fu Fp IH]; intros [|v q] Fq [|i] Ex Ey; cbn in Ex, Ey; try discriminate; inversion Fq; subst; unfold fpos_neq; cbn [map2 existsb].
  - injection Ex as ->. injection Ey as ->. rewrite Beqb_correct by auto. rewrite Req_bool_false by auto. reflexivity.
  - apply orb_true_iff. right. apply (IH q ltac:(auto) i); auto. Qed.
Lemma coords_fin boxes p : Forall2 good_coord boxes p -> Forall (fun x => fin x) p.
Proof. induction 1 as [|b x ? ? (F & _)]; constructor; auto. Qed.

(** *** Nothing fails: the constructor, [add_result], [set_refined] and all lookups return. *)
Theorem C62_total : forall per boxes gap cutoff rs ps, Forall good_box boxes ->
  Forall (fun r => good_position boxes (dr_pos r)) rs -> Forall (good_refined per boxes) ps ->
  (exists c, fcontainer_new per boxes gap cutoff rs ps = Ok c) /\
  forall c, fhistory per boxes gap cutoff rs ps c ->
    (forall r, good_position boxes (dr_pos r) -> exists c', fadd_result c r = Ok (c', is_fnode gap r)) /\
    (forall p, good_refined per boxes p -> exists c', fset_refined c p = Ok c') /\
    (forall q, good_position boxes q -> exists ds ds', fneighbour_distances c q = Ok ds /\ frefined_distances c q = Ok ds').
Proof. intros per boxes gap cutoff rs ps Gb Hr Hp. split; [destruct (new_good per boxes gap cutoff Gb rs ps Hr Hp) as (c & E & _); eauto|].
  intros c H. pose proof (history_good per boxes gap cutoff Gb rs ps c H Hr Hp) as G. split; [|split].
  - intros r Gr. destruct (add_good per boxes gap cutoff Gb rs ps c r G Gr) as (c' & b & E & _ & ->). exists c'. exact E.
  - intros p Gp. destruct (refined_good per boxes gap cutoff Gb rs ps c p G Gp) as (c' & E & _). eauto.
  - intros q Gq. destruct (lookup_nodes per boxes gap cutoff rs ps c q G Gq) as (ns & E & _). destruct (lookup_refined per boxes gap cutoff rs ps c q G Gq) as (ms & E' & _).
    unfold fneighbour_distances, frefined_distances. rewrite E. destruct G as (Ep & Eb & _). rewrite Ep, Eb, E'. do 2 eexists. split; reflexivity. Qed.
Print Assumptions C62_total.

(** *** What is stored: every result exactly once, with normalised position, as a node or as
    rejected. *)
Theorem C62_classified : forall per boxes gap cutoff rs ps c, Forall good_box boxes ->
  Forall (fun r => good_position boxes (dr_pos r)) rs -> Forall (good_refined per boxes) ps -> fhistory per boxes gap cutoff rs ps c ->
  cl_flat (fc_nodes c) = filter (is_fnode gap) (map (fstored per boxes) rs) /\
  fc_rejected c = filter (fun r => negb (is_fnode gap r)) (map (fstored per boxes) rs) /\ cl_flat (fc_refined c) = ps.
Proof. intros per boxes gap cutoff rs ps c Gb Hr Hp H. destruct (history_good per boxes gap cutoff Gb rs ps c H Hr Hp) as (_ & _ & _ & _ & (_ & _ & _ & N) & R & (_ & _ & _ & P)). auto. Qed.
Print Assumptions C62_classified.
Theorem C62_stored_in_box : forall per boxes r, Forall good_box boxes -> good_position boxes (dr_pos r) -> good_refined per boxes (dr_pos (fstored per boxes r)).
Proof. intros per boxes r Gb H. exact (stored_storable per boxes Gb r H). Qed.
Print Assumptions C62_stored_in_box.

(** *** No node is missed: every stored node whose computed distance from the query is below
    [dist_cutoff] by a relative margin of 2^-30 is reported, with that distance.  Without
    periodicity the cutoff must not exceed the box (compare C07). *)
Theorem C62_no_node_missed : forall per boxes gap cutoff rs ps c, Forall good_box boxes -> (length boxes <= 64)%nat -> good_cutoff cutoff ->
  (per = true \/ Forall (fun b => B2R cutoff <= fbox_size b) boxes) ->
  Forall (fun r => good_position boxes (dr_pos r)) rs -> Forall (good_refined per boxes) ps -> fhistory per boxes gap cutoff rs ps c ->
  forall q r, good_position boxes q -> In r rs -> is_fnode gap r = true -> let p := dr_pos (fstored per boxes r) in
  differ p q -> B2R (fdist per boxes q p) <= B2R cutoff * (1 - bpow radix2 (-30)) ->
  is_finite (fdist per boxes q p) = true /\ exists ds, fneighbour_distances c q = Ok ds /\ In (fdist per boxes q p) ds.
Proof. intros per boxes gap cutoff rs ps c Gb Ll Gc Hf Hr Hp H q r Gq Ir Nr p Df Hd. pose proof (history_good per boxes gap cutoff Gb rs ps c H Hr Hp) as G.
  rewrite Forall_forall in Hr. pose proof (stored_storable per boxes Gb r (Hr r Ir)) as St. fold p in St.
  assert (Gp : Forall2 good_coord boxes p). { clear - Gb St. revert Gb. induction St; intros Gb; inversion Gb; subst; constructor; auto. eapply storable_good; eauto. }
  destruct (near_computed per cutoff Gc boxes p q Ll Gb Hf Gp Gq) as (F & N). split; auto. specialize (N Hd).
  destruct (lookup_nodes per boxes gap cutoff rs ps c q G Gq) as (ns & E & Hns). unfold fneighbour_distances. rewrite E. cbn [bind]. eexists. split; [reflexivity|].
  destruct G as (Ep & Eb & _ & _ & (N1 & N2 & _) & _). rewrite Ep, Eb. apply (in_map (fun r => fdist per boxes q (dr_pos r)) ns (fstored per boxes r)). apply Hns. split; [|split].
  - apply filter_In. split; [apply in_map; auto|exact Nr].
  - apply differ_neq; eauto using coords_fin.
  - apply near_neighbour; auto. Qed.
Print Assumptions C62_no_node_missed.

(** the same for the exact distance (of the nearest periodic image) *)
Theorem C62_no_node_missed_exact : forall per boxes gap cutoff rs ps c, Forall good_box boxes -> good_cutoff cutoff ->
  (per = true \/ Forall (fun b => B2R cutoff <= fbox_size b) boxes) ->
  Forall (fun r => good_position boxes (dr_pos r)) rs -> Forall (good_refined per boxes) ps -> fhistory per boxes gap cutoff rs ps c ->
  forall q r, good_position boxes q -> In r rs -> is_fnode gap r = true -> let p := dr_pos (fstored per boxes r) in
  differ p q -> within_dist per boxes p q (B2R cutoff * (1 - bpow radix2 (-30))) ->
  exists ds, fneighbour_distances c q = Ok ds /\ In (fdist per boxes q p) ds.
Proof. intros per boxes gap cutoff rs ps c Gb Gc Hf Hr Hp H q r Gq Ir Nr p Df Hd. pose proof (history_good per boxes gap cutoff Gb rs ps c H Hr Hp) as G.
  rewrite Forall_forall in Hr. pose proof (stored_storable per boxes Gb r (Hr r Ir)) as St. fold p in St.
  assert (Gp : Forall2 good_coord boxes p). { clear - Gb St. revert Gb. induction St; intros Gb; inversion Gb; subst; constructor; auto. eapply storable_good; eauto. }
  assert (D0 : 0 <= B2R cutoff * (1 - pw (-30))). { destruct Gc as (_ & V). pose proof (pw_pos (-400)). assert (pw (-30) <= 1) by (change 1 with (pw 0); apply pw_le; lia). apply Rmult_le_pos; lra. }
  pose proof (near_true per cutoff Gc boxes p q _ (Rle_refl _) D0 Gb Hf Gp Gq Hd) as N.
  destruct (lookup_nodes per boxes gap cutoff rs ps c q G Gq) as (ns & E & Hns). unfold fneighbour_distances. rewrite E. cbn [bind]. eexists. split; [reflexivity|].
  destruct G as (Ep & Eb & _ & _ & (N1 & N2 & _) & _). rewrite Ep, Eb. apply (in_map (fun r => fdist per boxes q (dr_pos r)) ns (fstored per boxes r)). apply Hns. split; [|split].
  - apply filter_In. split; [apply in_map; auto|exact Nr].
  - apply differ_neq; eauto using coords_fin.
  - apply near_neighbour; auto. Qed.
Print Assumptions C62_no_node_missed_exact.

(** *** No refined position is missed either. *)
Theorem C62_no_refined_missed : forall per boxes gap cutoff rs ps c, Forall good_box boxes -> (length boxes <= 64)%nat -> good_cutoff cutoff ->
  (per = true \/ Forall (fun b => B2R cutoff <= fbox_size b) boxes) ->
  Forall (fun r => good_position boxes (dr_pos r)) rs -> Forall (good_refined per boxes) ps -> fhistory per boxes gap cutoff rs ps c ->
  forall q p, good_position boxes q -> In p ps -> B2R (fdist per boxes q p) <= B2R cutoff * (1 - bpow radix2 (-30)) ->
  is_finite (fdist per boxes q p) = true /\ exists ds, frefined_distances c q = Ok ds /\ In (fdist per boxes q p) ds.
Proof. intros per boxes gap cutoff rs ps c Gb Ll Gc Hf Hr Hp H q p Gq Ip Hd. pose proof (history_good per boxes gap cutoff Gb rs ps c H Hr Hp) as G.
  rewrite Forall_forall in Hp. pose proof (Hp p Ip) as St.
  assert (Gp : Forall2 good_coord boxes p). { clear - Gb St. revert Gb. induction St as [|b x ? ? X]; intros Gb; inversion Gb; subst; constructor; auto. apply (storable_good per); auto. }
  destruct (near_computed per cutoff Gc boxes p q Ll Gb Hf Gp Gq) as (F & N). split; auto. specialize (N Hd).
  destruct (lookup_refined per boxes gap cutoff rs ps c q G Gq) as (ns & E & Hns). unfold frefined_distances. 
  destruct G as (Ep & Eb & _ & _ & _ & _ & (N1 & N2 & _)). rewrite Ep, Eb, E. cbn [bind]. eexists. split; [reflexivity|]. apply (in_map (fun p => fdist per boxes q p) ns p). apply Hns. split; auto. apply near_neighbour; auto. Qed.
Print Assumptions C62_no_refined_missed.

(** *** Only stored nodes are reported, and not the query position itself. *)
Theorem C62_only_stored : forall per boxes gap cutoff rs ps c, Forall good_box boxes ->
  Forall (fun r => good_position boxes (dr_pos r)) rs -> Forall (good_refined per boxes) ps -> fhistory per boxes gap cutoff rs ps c ->
  forall q, good_position boxes q -> exists ns, fget_neighbours c q = Ok ns /\ fneighbour_distances c q = Ok (map (fun r => fdist per boxes q (dr_pos r)) ns) /\
    forall r, In r ns -> In r (filter (is_fnode gap) (map (fstored per boxes) rs)) /\ differ (dr_pos r) q.
Proof. intros per boxes gap cutoff rs ps c Gb Hr Hp H q Gq. pose proof (history_good per boxes gap cutoff Gb rs ps c H Hr Hp) as G. destruct (lookup_nodes per boxes gap cutoff rs ps c q G Gq) as (ns & E & Hns).
  exists ns. split; auto. split; [unfold fneighbour_distances; rewrite E; destruct G as (Ep & Eb & _); rewrite Ep, Eb; reflexivity|].
  intros r Hr'. apply Hns in Hr' as (A & B & _). split; auto. apply filter_In in A as (A & _). apply in_map_iff in A as (r0 & <- & I0). rewrite Forall_forall in Hr. pose proof (stored_storable per boxes Gb r0 (Hr r0 I0)) as St.
  assert (Gp : Forall2 good_coord boxes (dr_pos (fstored per boxes r0))). { clear - Gb St. revert Gb. induction St; intros Gb; inversion Gb; subst; constructor; auto. eapply storable_good; eauto. }
  revert B. generalize (dr_pos (fstored per boxes r0)) (coords_fin _ _ Gp) (coords_fin _ _ Gq). clear. intros p Fp Fq. unfold fpos_neq. revert q Fq. induction Fp as [|x p Fx Fp IH]; intros [|y q] Fq B; cbn in B; try discriminate. inversion Fq; subst.
  apply orb_true_iff in B as [B|B].
  - exists 0%nat, x, y. split; [reflexivity|]. split; [reflexivity|]. rewrite Beqb_correct in B by auto. destruct (Req_bool_spec (B2R x) (B2R y)); [discriminate|auto].
  - destruct (IH q) as (i & u & v & E); auto. exists (S i), u, v. exact E. Qed.
Print Assumptions C62_only_stored.

(** *** Finding: the margin is needed.  In a box of size 3 with dist_cutoff 0.5/3 (18 cells) a
    node whose computed distance is below the cutoff is not found. *)
Definition c62_boxes : list (double * double) := [(B754_zero false, of_int 3)].
Definition c62_cutoff : double := of_dyadic 6004799503160661 (-55).
Definition c62_p : double := of_dyadic 8256599316845909 (-52).
Definition c62_q : double := of_dyadic 9007199254740991 (-52).
Definition result_at (p : list double) (v : double) : dmin_result := mk_dmin_result p v true 0 0 0 [] None.
Definition lookup_count (per : bool) (boxes : list (double * double)) (gap cutoff : double) (rs : list dmin_result) (q : list double) : option nat :=
  match fcontainer_new per boxes gap cutoff rs [] with
  | Ok c => match fneighbour_distances c q with Ok ds => Some (length ds) | Err _ => None end
  | Err _ => None
  end.
Lemma lookup_count_ok per boxes gap cutoff rs q n : lookup_count per boxes gap cutoff rs q = Some n -> exists c ds, fcontainer_new per boxes gap cutoff rs [] = Ok c /\ fneighbour_distances c q = Ok ds /\ length ds = n.
Proof. unfold lookup_count. destruct (fcontainer_new _ _ _ _ _ _) as [c|]; [|discriminate]. destruct (fneighbour_distances c q) as [ds|] eqn:E; [|discriminate]. intros X. injection X as X. exists c, ds. auto. Qed.
Theorem C62_boundary_refuted : exists c, fcontainer_new true c62_boxes fone c62_cutoff [result_at [c62_p] (B754_zero false)] [] = Ok c /\
  fneighbour_distances c [c62_q] = Ok [] /\ is_fnode fone (result_at [c62_p] (B754_zero false)) = true /\ map B2SF (dr_pos (fstored true c62_boxes (result_at [c62_p] (B754_zero false)))) = map B2SF [c62_p] /\
  Bltb (fdist true c62_boxes [c62_q] [c62_p]) c62_cutoff = true /\ fpos_neq [c62_p] [c62_q] = true.
Proof. destruct (lookup_count_ok true c62_boxes fone c62_cutoff [result_at [c62_p] (B754_zero false)] [c62_q] 0) as (c & ds & E & D & L); [vm_compute; reflexivity|].
  exists c. split; [exact E|]. destruct ds; [|discriminate]. split; [exact D|]. split; [vm_compute; reflexivity|]. split; [vm_compute; reflexivity|]. split; vm_compute; reflexivity. Qed.
Print Assumptions C62_boundary_refuted.
(** *** Finding: if the box is more than about 2^63 times the cutoff the number of cells does
    not fit the integer type and there is a single cell (all nodes are candidates). *)
Theorem C62_tiny_cutoff : fnum_cells1 (of_dyadic 1 (-62)) (B754_zero false, fone) = 100%Z /\ fnum_cells1 (of_dyadic 1 (-63)) (B754_zero false, fone) = 1%Z.
Proof. split; vm_compute; reflexivity. Qed.
Print Assumptions C62_tiny_cutoff.

(** hypotheses met: the box [-1/2, 1/2] x [0, 1], cutoff 1/4, a node and a query on different
    sides of a boundary, periodic; and the same without periodicity inside the box *)
Definition c62_boxes2 : list (double * double) := [(of_dyadic (-1) (-1), of_dyadic 1 (-1)); (B754_zero false, fone)].
Definition c62_quarter : double := of_dyadic 1 (-2).
Lemma good_unit lo hi (a b : R) : fin lo -> fin hi -> val lo = a -> val hi = b -> fin (fsub hi lo) -> val (fsub hi lo) = 1 -> a < b -> -1 <= a <= 1 -> -1 <= b <= 1 -> good_box (lo, hi).
Proof. intros Fl Fh Vl Vh Fs Vs L Ha Hb. unfold good_box, fbox_size. cbn [fst snd]. rewrite Vl, Vh, Vs. assert (1 <= pw 400) by (change 1 with (pw 0); apply pw_le; lia). assert (pw (-400) <= 1) by (change 1 with (pw 0); apply pw_le; lia).
  split; auto. split; auto. split; auto. split; [apply Rabs_le; lra|]. split; [apply Rabs_le; lra|]. auto. Qed.
Lemma size_one1 : fsub (of_dyadic 1 (-1)) (of_dyadic (-1) (-1)) = fone.
Proof. apply B2SF_inj. vm_compute. reflexivity. Qed.
Lemma size_one2 : fsub fone (B754_zero false) = fone.
Proof. apply B2SF_inj. vm_compute. reflexivity. Qed.
Lemma c62_boxes2_good : Forall good_box c62_boxes2.
Proof. destruct fone_val as (F1 & V1). destruct (of_dyadic_val (-1) (-1) ltac:(lia) ltac:(lia)) as (Fl & Vl). destruct (of_dyadic_val 1 (-1) ltac:(lia) ltac:(lia)) as (Fh & Vh). change (pw (-1)) with (/ 2) in *.
  constructor; [|constructor; [|constructor]].
  - apply (good_unit _ _ _ _ Fl Fh Vl Vh); try rewrite size_one1; auto; lra.
  - apply (good_unit (B754_zero false) fone 0 1 eq_refl F1 eq_refl V1); try rewrite size_one2; auto; lra. Qed.
Lemma good_dyadic b m e : fbox_size b = 1 -> -1 <= val (fst b) <= 1 -> (-10 <= e <= 0)%Z -> (Z.abs m <= 100)%Z -> good_coord b (of_dyadic m e).
Proof. intros Hs Hl He Hm. destruct (of_dyadic_val m e ltac:(lia) ltac:(lia)) as (F & V). split; auto. rewrite V, Hs, Rmult_1_r. change (pw 10) with 1024.
  assert (Be : 0 <= pw e <= 1) by (split; [apply bpow_ge_0|change 1 with (pw 0); apply pw_le; lia]). assert (Bm : -100 <= IZR m <= 100) by (split; [apply (IZR_le (-100))|apply (IZR_le m 100)]; lia). apply Rabs_le. nra. Qed.
Lemma c62_sizes : Forall (fun b => fbox_size b = 1 /\ -1 <= val (fst b) <= 1) c62_boxes2.
Proof. destruct fone_val as (F1 & V1). destruct (of_dyadic_val (-1) (-1) ltac:(lia) ltac:(lia)) as (_ & Vl). change (pw (-1)) with (/ 2) in *.
  constructor; [|constructor; [|constructor]]; unfold fbox_size; cbn [fst snd].
  - rewrite size_one1. split; auto. rewrite Vl. lra.
  - rewrite size_one2. split; auto. rewrite val_zero. lra. Qed.
Lemma c62_good_point m1 e1 m2 e2 : (-10 <= e1 <= 0)%Z -> (Z.abs m1 <= 100)%Z -> (-10 <= e2 <= 0)%Z -> (Z.abs m2 <= 100)%Z -> good_position c62_boxes2 [of_dyadic m1 e1; of_dyadic m2 e2].
Proof. intros H1 H2 H3 H4. pose proof c62_sizes as S. inversion S as [|? ? (A1 & A2) S1]; subst. inversion S1 as [|? ? (B1 & B2) _]; subst. constructor; [apply good_dyadic; auto|]. constructor; [apply good_dyadic; auto|constructor]. Qed.
Definition c62_node : list double := [of_dyadic 15 (-5); of_dyadic 1 (-1)].
Definition c62_query : list double := [of_dyadic (-15) (-5); of_dyadic 5 (-3)].
Theorem C62_hypotheses_met : Forall good_box c62_boxes2 /\ good_cutoff c62_quarter /\ good_position c62_boxes2 c62_node /\ good_position c62_boxes2 c62_query /\
  Forall (fun b => B2R c62_quarter <= fbox_size b) c62_boxes2 /\ differ c62_node c62_query /\
  lookup_count true c62_boxes2 fone c62_quarter [result_at c62_node (B754_zero false)] c62_query = Some 1%nat /\
  lookup_count false c62_boxes2 fone c62_quarter [result_at c62_node (B754_zero false)] c62_query = Some 0%nat /\
  map B2SF (dr_pos (fstored true c62_boxes2 (result_at c62_node fone))) = map B2SF c62_node /\
  Bltb (fdist true c62_boxes2 c62_query c62_node) (of_dyadic 3 (-4)) = true.
Proof. destruct (of_dyadic_val 1 (-2) ltac:(lia) ltac:(lia)) as (Fq & Vq). change (pw (-2)) with (/ 4) in Vq. assert (pw (-400) <= / 4) by (change (/ 4) with (pw (-2)); apply pw_le; lia). assert (/ 4 <= pw 400) by (change (/ 4) with (pw (-2)); apply pw_le; lia).
  split; [apply c62_boxes2_good|]. split; [split; [exact Fq|unfold c62_quarter; rewrite Vq; lra]|]. split; [apply c62_good_point; lia|]. split; [apply c62_good_point; lia|].
  split; [eapply Forall_impl; [|exact c62_sizes]; intros b (E & _); rewrite E; unfold c62_quarter; rewrite Vq; lra|]. split.
  { exists 0%nat, (of_dyadic 15 (-5)), (of_dyadic (-15) (-5)). split; [reflexivity|]. split; [reflexivity|]. destruct (of_dyadic_val 15 (-5) ltac:(lia) ltac:(lia)) as (_ & ->). destruct (of_dyadic_val (-15) (-5) ltac:(lia) ltac:(lia)) as (_ & ->). pose proof (pw_pos (-5)). lra. }
  split; [vm_compute; reflexivity|]. split; [vm_compute; reflexivity|]. split; vm_compute; reflexivity. Qed.
Print Assumptions C62_hypotheses_met.
