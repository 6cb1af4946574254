(** At most [packing_bound] positions fit into a periodic box at mutual distance
    [c]. *)
From Coq Require Import String.
From Verif Require Import Base BaseFacts CoordSys SpecGeom CoordSysFacts CellList CellListFacts MeshFacts Values Container SpecContainer Queue Hdf5 Controller SpecSearch.
Open Scope list_scope.
Open Scope Qc_scope.

Definition cell1 (w : Qc) (l : Qc * Qc) (x : Qc) : Z := qfloor ((x - fst l) / w).
Definition cell (w : Qc) (ls : list (Qc * Qc)) (p : point) : list Z := map2 (cell1 w) ls p.
Definition extent (w : Qc) (l : Qc * Qc) : Z := Z.succ (qfloor ((snd l - fst l) / w)).

Lemma cell1_close w l x y : 0 < w -> cell1 w l x = cell1 w l y -> qabs (y - x) < w.
Proof. intros W E. unfold cell1 in E. destruct (qfloor_spec ((x - fst l) / w)) as [A B]. destruct (qfloor_spec ((y - fst l) / w)) as [C D].
  rewrite E in A, B. set (k := qc (qfloor ((y - fst l) / w))) in *.
  rewrite le_div_iff in A, C by auto. rewrite div_lt_iff in B, D by auto. apply qabs_lt.
  assert (E1 : (k + 1) * w = k * w + w) by ring. rewrite E1 in B, D. generalize dependent (k * w). intros. split; qlra. Qed.
Lemma cell1_range w l x : 0 < w -> fst l <= x -> x < snd l -> (0 <= cell1 w l x < extent w l)%Z.
Proof. intros W A B. unfold cell1, extent. split.
  - apply qfloor_nonneg. apply le_div_iff; auto. qlra.
  - apply Zle_lt_succ. apply qfloor_mono. apply div_le_mono; auto. qlra. Qed.

Lemma cell_close w ls p q : 0 < w -> length p = length ls -> length q = length ls -> cell w ls p = cell w ls q ->
  euclid_sq p q <= qc (Z.of_nat (length ls)) * (w * w) /\ (ls <> [] -> euclid_sq p q < qc (Z.of_nat (length ls)) * (w * w)).
Proof. intros W. revert p q. induction ls as [|l ls IH]; intros [|x p] [|y q] L1 L2 E; cbn in L1, L2; try discriminate.
  - split; [|congruence]. cbn [euclid_sq length]. change (qc (Z.of_nat 0)) with (qc 0). rewrite qc_0, Qcmult_0_l. apply Qcle_refl.
  - unfold cell in E. cbn [map2] in E. pose proof (f_equal (hd 0%Z) E) as E1. pose proof (f_equal (@tl Z) E) as E2. cbn [hd tl] in E1, E2.
    destruct (IH p q ltac:(lia) ltac:(lia) E2) as [H _]. apply cell1_close in E1; auto.
    assert (S : (y - x) * (y - x) < w * w).
    { apply qabs_lt in E1 as [A B]. qcq. nra. }
    assert (F : qc (Z.of_nat (length (l :: ls))) * (w * w) = w * w + qc (Z.of_nat (length ls)) * (w * w)).
    { cbn [length]. rewrite Nat2Z.inj_succ. unfold Z.succ. rewrite qc_add, qc_1. ring. }
    cbn [euclid_sq]. rewrite F. generalize dependent (qc (Z.of_nat (length ls)) * (w * w)). intros. split; [|intros _]; qlra. Qed.

Section Packing.
  Variables (cs : coordsys) (c : Qc).
  Hypothesis Per : periodic cs = true.
  Hypothesis Hw : wf_box cs.
  Hypothesis Hc : 0 < c.
  Let d := qc (Z.of_nat (length (limits cs))).
  Let w := c / d.

  Lemma d_pos : limits cs <> [] -> 1 <= d /\ 0 < w.
  Proof. intros N. assert (1 <= d). { unfold d. rewrite <- qc_1. apply qc_le. destruct (limits cs); [congruence|]. cbn [length]. lia. }
    split; auto. unfold w. apply lt_div_iff; [qlra|]. rewrite Qcmult_0_l. auto. Qed.

  Lemma dims : limits cs = [] \/ limits cs <> [].
  Proof. destruct (limits cs); [left|right]; congruence. Qed.
  Lemma same_cell_close p q : is_pos cs p -> is_pos cs q ->
    cell w (limits cs) (normalize_position cs p) = cell w (limits cs) (normalize_position cs q) -> dist_lt cs p q c = true.
  Proof. intros Hp Hq E. unfold dist_lt. apply andb_true_iff. split; [apply ltb_spec; auto|]. apply ltb_spec.
    pose proof (normalize_length cs p Hp) as Np. pose proof (normalize_length cs q Hq) as Nq.
    assert (D : dist_sq cs p q <= euclid_sq (normalize_position cs p) (normalize_position cs q)).
    { rewrite <- (dist_sq_normalize cs p q Hw Hp Hq). eapply dist_sq_minimal; eauto. apply shifted_refl. auto. }
    destruct dims as [EL|EL].
    - unfold is_pos in *. rewrite EL in *. destruct p; [|discriminate]. destruct q; [|discriminate]. unfold dist_sq. rewrite EL. cbn. 
      qcq. nra.
    - destruct (d_pos EL) as [D1 W].
      destruct (cell_close w (limits cs) _ _ W Np Nq E) as [_ S]. specialize (S EL). fold d in S.
      assert (Cw : c = w * d) by (apply (qc_div_mul c (s := d)); apply pos_neq0; qlra).
      assert (F : d * (w * w) = c * w) by (rewrite Cw at 1; ring).
      assert (G : w <= c). { unfold w. apply div_le_iff; [qlra|]. clear -D1 Hc. qcq. nra. }
      rewrite F in S. clear -D S G Hc W. eapply Qcle_lt_trans; [exact D|]. eapply Qclt_le_trans; [exact S|]. qcq. nra. Qed.

  Lemma cell_in_range p : limits cs <> [] -> is_pos cs p ->
    In (cell w (limits cs) (normalize_position cs p)) (product (map zrange (map (extent w) (limits cs)))).
  Proof. intros N Hp. destruct (d_pos N) as [_ W]. apply in_range_product. pose proof (normalize_in_box cs p Per Hw Hp) as B. unfold in_box in B. unfold cell.
    generalize dependent w. intros w0 W. clear d w N. induction B as [|l x ls xs [B1 B2] B IH]; cbn; [constructor|]. constructor; [|exact IH]. apply cell1_range; auto. Qed.

  Theorem packing l : Forall (is_pos cs) l -> separated cs c l -> (length l <= packing_bound cs c)%nat.
  Proof. intros F S.
    assert (ND : NoDup (map (fun p => cell w (limits cs) (normalize_position cs p)) l)).
    { apply NoDup_nth_error. intros i j Hi E. rewrite map_length in Hi. rewrite !nth_error_map in E.
      destruct (nth_error l i) as [p|] eqn:Ei; [|apply nth_error_None in Ei; lia].
      destruct (nth_error l j) as [q|] eqn:Ej; [|discriminate]. cbn in E. injection E as E.
      assert (is_pos cs p) by (rewrite Forall_forall in F; apply F; eapply nth_error_In; eauto).
      assert (is_pos cs q) by (rewrite Forall_forall in F; apply F; eapply nth_error_In; eauto).
      destruct (Nat.lt_trichotomy i j) as [O|[O|O]]; auto; exfalso.
      - pose proof (S i j p q O Ei Ej) as X. rewrite same_cell_close in X; auto. discriminate.
      - pose proof (S j i q p O Ej Ei) as X. rewrite same_cell_close in X; auto. discriminate. }
    destruct dims as [EL|EL].
    - (* no dimension: at most one position *)
      unfold packing_bound. rewrite EL. cbn. destruct l as [|p [|q l]]; cbn; auto. exfalso. cbn in ND. inversion ND as [|? ? N1 _]; subst. apply N1. left. unfold cell. rewrite EL. reflexivity.
    - rename EL into N.
      rewrite <- (map_length (fun p => cell w (limits cs) (normalize_position cs p)) l).
      transitivity (length (product (map zrange (map (extent w) (limits cs))))).
      + apply NoDup_incl_length; auto. intros x Hx. apply in_map_iff in Hx as (p & <- & Hp). apply cell_in_range; auto. rewrite Forall_forall in F. auto.
      + rewrite product_length. unfold packing_bound. fold d. fold w. rewrite !map_map.
        assert (X : map (fun x => length (zrange (extent w x))) (limits cs) = map (fun l1 => Datatypes.S (Z.to_nat (qfloor ((snd l1 - fst l1) / w)))) (limits cs)).
        { apply map_ext_in. intros [lo hi] Hl. unfold zrange. rewrite map_length, seq_length. unfold extent. cbn [fst snd]. rewrite Z2Nat.inj_succ; auto.
          apply qfloor_nonneg. apply le_div_iff; [apply d_pos; auto|]. unfold wf_box in Hw. rewrite Forall_forall in Hw. specialize (Hw _ Hl). cbn in Hw. qlra. }
        rewrite X. auto. Qed.
End Packing.
