(** Geometry of cells: close positions have adjacent cells. *)
From Verif Require Import Base BaseFacts CoordSys SpecGeom CoordSysFacts CellList CellListFacts Values Container.
Open Scope Qc_scope.

Arguments num_cells1 : simpl never.

Lemma num_cells1_pos cutoff l : (0 < num_cells1 cutoff l)%Z.
Proof. unfold num_cells1. destruct (eqb cutoff 0); lia. Qed.
Lemma num_cells_positive cutoff cs : positive (num_cells cutoff cs).
Proof. unfold num_cells, positive. induction (limits cs); simpl; constructor; auto using num_cells1_pos. Qed.
Lemma num_cells_length cutoff cs : length (num_cells cutoff cs) = length (limits cs).
Proof. apply map_length. Qed.
(** either a single cell, or the cells are at least as wide as the cutoff *)
Lemma num_cells1_wide cutoff l : 0 < cutoff ->
  num_cells1 cutoff l = 1%Z \/ qc (num_cells1 cutoff l) * cutoff <= size1 l.
Proof. intros Hc. unfold num_cells1. destruct (eqb cutoff 0) eqn:E.
  { apply eqb_spec in E. subst. exfalso. qlra. }
  set (t := qtrunc (size1 l / cutoff)). destruct (Z_le_gt_dec t 1); [left; lia|right].
  apply le_div_iff; auto. assert (0 <= size1 l / cutoff).
  { destruct (Qclt_le_dec (size1 l / cutoff) 0) as [N|N]; auto. exfalso.
    assert (t <= 0)%Z; [|lia]. subst t. replace 0%Z with (qtrunc 0) by reflexivity. apply qtrunc_mono. qlra. }
  apply Qcle_trans with (qc t).
  - apply qc_le. lia.
  - subst t. rewrite qtrunc_nonneg by auto. apply qfloor_spec. Qed.

Lemma get_index1_per n f : 0 <= f -> (0 < n)%Z -> get_index1 true n f = qfloor (f * qc n).
Proof. intros Hf Hn. unfold get_index1. apply qtrunc_nonneg. apply qc_pos in Hn. qnra. Qed.
Lemma get_index1_range per n f : (0 < n)%Z -> (per = true -> 0 <= f /\ f < 1) ->
  (0 <= get_index1 per n f < if per then n else n + 2)%Z.
Proof. intros Hn Hf. destruct per.
  - destruct (Hf eq_refl) as [F1 F2]. rewrite get_index1_per by auto. apply qc_pos in Hn.
    split; [apply qfloor_nonneg; qnra|]. apply qc_lt. eapply Qcle_lt_trans; [apply qfloor_spec|].
    clear Hf. qnra.
  - unfold get_index1. lia. Qed.

Lemma index_in_range per num f : positive num -> length f = length num ->
  (per = true -> Forall (fun x => 0 <= x /\ x < 1) f) ->
  in_range (total_of per num) (map2 (get_index1 per) num f).
Proof. intros Hp. revert f. unfold in_range. induction Hp as [|n num Hn Hp IH]; intros [|x f] Hl Hf; simpl in *; try lia.
  - destruct per; constructor.
  - assert (Hx : (0 <= get_index1 per n x < if per then n else n + 2)%Z).
    { apply get_index1_range; auto. intros E. specialize (Hf E). inversion Hf; auto. }
    assert (Hr : Forall2 (fun t i : Z => (0 <= i < t)%Z) (total_of per num) (map2 (get_index1 per) num f)).
    { apply IH; auto. intros E. specialize (Hf E). inversion Hf; auto. }
    destruct per; constructor; auto. Qed.

Lemma floor_near x y : - (1) < y - x -> y - x < 1 -> (-1 <= qfloor y - qfloor x <= 1)%Z.
Proof. intros H1 H2. pose proof (qfloor_spec x) as [X1 X2]. pose proof (qfloor_spec y) as [Y1 Y2].
  assert (A : qc (qfloor y - qfloor x) < qc 2). { rewrite qc_sub. change (qc 2) with (qc (1 + 1)). rewrite qc_add, qc_1. qlra. }
  assert (B : qc (-2) < qc (qfloor y - qfloor x)).
  { rewrite qc_sub. change (qc (-2)) with (qc (-(1 + 1))). rewrite qc_opp, qc_add, qc_1. qlra. }
  rewrite qc_lt in A, B. lia. Qed.
Lemma trunc_near x y : - (1) < y - x -> y - x < 1 -> (-1 <= qtrunc y - qtrunc x <= 1)%Z.
Proof. intros H1 H2. unfold qtrunc. dltb y 0; dltb x 0.
  - pose proof (floor_near (- x) (- y)). assert (-1 <= qfloor (- y) - qfloor (- x) <= 1)%Z by (apply H; qlra). lia.
  - assert (A : (qfloor (- y) <= 0)%Z). { apply Z.lt_succ_r. apply qc_lt. eapply Qcle_lt_trans; [apply qfloor_spec|].
      change (qc (Z.succ 0)) with (qc 1). rewrite qc_1. qlra. }
    assert (B : (qfloor x <= 0)%Z). { apply Z.lt_succ_r. apply qc_lt. eapply Qcle_lt_trans; [apply qfloor_spec|].
      change (qc (Z.succ 0)) with (qc 1). rewrite qc_1. qlra. }
    assert (C : (0 <= qfloor (- y))%Z) by (apply qfloor_nonneg; qlra).
    assert (D : (0 <= qfloor x)%Z) by (apply qfloor_nonneg; qlra). lia.
  - assert (A : (qfloor (- x) <= 0)%Z). { apply Z.lt_succ_r. apply qc_lt. eapply Qcle_lt_trans; [apply qfloor_spec|].
      change (qc (Z.succ 0)) with (qc 1). rewrite qc_1. qlra. }
    assert (B : (qfloor y <= 0)%Z). { apply Z.lt_succ_r. apply qc_lt. eapply Qcle_lt_trans; [apply qfloor_spec|].
      change (qc (Z.succ 0)) with (qc 1). rewrite qc_1. qlra. }
    assert (C : (0 <= qfloor (- x))%Z) by (apply qfloor_nonneg; qlra).
    assert (D : (0 <= qfloor y)%Z) by (apply qfloor_nonneg; qlra). lia.
  - apply floor_near; auto. Qed.

Lemma sq_lt_abs d c : 0 < c -> d * d < c * c -> - c < d /\ d < c.
Proof. intros Hc H. split; destruct (Qclt_le_dec d c), (Qclt_le_dec (- c) d); auto; exfalso; qnra. Qed.

Definition adjacent1 (per : bool) (n i j : Z) : Prop :=
  exists o, (-1 <= o <= 1)%Z /\ j = if per then ((i + o) mod n)%Z else (i + o)%Z.

Lemma frac1_nonper lo hi x : get_frac1 false (lo, hi) x = (x - lo) / (hi - lo).
Proof. reflexivity. Qed.
Lemma frac1_per lo hi x : get_frac1 true (lo, hi) x = (x - lo) / (hi - lo) - qc (qfloor ((x - lo) / (hi - lo))).
Proof. unfold get_frac1, size1, pymod. cbn [fst snd].
  replace ((x - lo) / (hi - lo) / 1) with ((x - lo) / (hi - lo)); [ring|].
  unfold Qcdiv. change (/ 1) with 1. ring. Qed.

Lemma near1 per lo hi cutoff p q : lo < hi -> 0 < cutoff ->
  delta1 per (lo, hi) (p, q) * delta1 per (lo, hi) (p, q) < cutoff * cutoff ->
  (per = false -> cutoff <= qc 2 * (hi - lo)) ->
  let n := num_cells1 cutoff (lo, hi) in
  adjacent1 per n (get_index1 per n (get_frac1 per (lo, hi) p)) (get_index1 per n (get_frac1 per (lo, hi) q)).
Proof. intros Hl Hc Hd Hs n. unfold adjacent1. assert (Hn : (0 < n)%Z) by apply num_cells1_pos.
  assert (Hsz : 0 < hi - lo) by qlra.
  destruct per.
  - (* periodic *)
    pose proof (frac1_range lo hi p) as [P1 P2]. pose proof (frac1_range lo hi q) as [Q1 Q2].
    set (fp := get_frac1 true (lo, hi) p) in *. set (fq := get_frac1 true (lo, hi) q) in *.
    rewrite !get_index1_per by auto.
    assert (Rq : (0 <= qfloor (fq * qc n) < n)%Z).
    { rewrite <- get_index1_per by auto. apply (@get_index1_range true n fq Hn). auto. }
    assert (Rp : (0 <= qfloor (fp * qc n) < n)%Z).
    { rewrite <- get_index1_per by auto. apply (@get_index1_range true n fp Hn). auto. }
    destruct (@num_cells1_wide cutoff (lo, hi) Hc) as [E|W]; [fold n in E|fold n in W].
    + (* one cell *) exists 0%Z. split; [lia|]. rewrite E in *. rewrite Z.mod_1_r. lia.
    + unfold size1 in W; cbn [fst snd] in W.
      destruct (@delta1_attained lo hi p q Hl) as [k Hk].
      assert (Hk' : (q - (p + qc k * (hi - lo))) * (q - (p + qc k * (hi - lo))) < cutoff * cutoff).
      { rewrite <- Hk. exact Hd. }
      apply sq_lt_abs in Hk' as [K1 K2]; auto.
      set (m := (qfloor ((q - lo) / (hi - lo)) - qfloor ((p - lo) / (hi - lo)) - k)%Z).
      assert (Ef : (fq - fp + qc m) * (hi - lo) = q - (p + qc k * (hi - lo))).
      { subst fp fq m. rewrite !frac1_per, !qc_sub. field. apply pos_neq0; auto. }
      assert (B : - (1) < fq * qc n + qc (m * n) - fp * qc n /\ fq * qc n + qc (m * n) - fp * qc n < 1).
      { rewrite qc_mul. replace (fq * qc n + qc m * qc n - fp * qc n) with ((fq - fp + qc m) * qc n) by ring.
        apply qc_pos in Hn. set (d := fq - fp + qc m) in *. clearbody d. rewrite <- Ef in K1, K2.
        clear - K1 K2 W Hsz Hn Hc. clearbody n. set (N := qc n) in *. clearbody N.
        set (s := hi - lo) in *. clearbody s.
        assert (A1 : (d * N) * s < 1 * s). { apply Qclt_le_trans with (cutoff * N); [|qlra]. qnra. }
        assert (A2 : (- (1)) * s < (d * N) * s). { apply Qcle_lt_trans with (- cutoff * N); [qlra|]. qnra. }
        split; qnra. }
      destruct B as [B1 B2].
      pose proof (@floor_near (fp * qc n) (fq * qc n + qc (m * n)) B1 B2) as F.
      rewrite qfloor_add_Z in F.
      exists (qfloor (fq * qc n) + m * n - qfloor (fp * qc n))%Z. split; [lia|].
      replace (qfloor (fp * qc n) + (qfloor (fq * qc n) + m * n - qfloor (fp * qc n)))%Z
        with (qfloor (fq * qc n) + m * n)%Z by lia.
      rewrite Z.mod_add by lia. symmetry. apply Z.mod_small. auto.
  - (* non-periodic *)
    specialize (Hs eq_refl). unfold delta1 in Hd. apply sq_lt_abs in Hd as [D1 D2]; auto.
    rewrite !frac1_nonper. set (fp := (p - lo) / (hi - lo)). set (fq := (q - lo) / (hi - lo)).
    assert (Ef : (fq - fp) * (hi - lo) = q - p).
    { subst fp fq. field. apply pos_neq0; auto. }
    unfold get_index1.
    assert (G : (-1 <= Z.max 0 (Z.min (qtrunc (fq * qc n) + 1) (n + 2 - 1)) - Z.max 0 (Z.min (qtrunc (fp * qc n) + 1) (n + 2 - 1)) <= 1)%Z).
    2:{ exists (Z.max 0 (Z.min (qtrunc (fq * qc n) + 1) (n + 2 - 1)) - Z.max 0 (Z.min (qtrunc (fp * qc n) + 1) (n + 2 - 1)))%Z. lia. }
    destruct (@num_cells1_wide cutoff (lo, hi) Hc) as [E|W]; [fold n in E|fold n in W].
    + rewrite E. clear E. rewrite qc_1, !Qcmult_1_r.
      assert (B : - qc 2 < fq - fp /\ fq - fp < qc 2).
      { rewrite <- Ef in D1, D2. set (d := fq - fp) in *. set (s := hi - lo) in *. clearbody d s. clear - D1 D2 Hs Hsz.
        set (t := qc 2) in *. clearbody t. split; qnra. }
      destruct B as [B1 B2].
      assert (T : (~ (qtrunc fp <= -1 /\ 1 <= qtrunc fq) /\ ~ (qtrunc fq <= -1 /\ 1 <= qtrunc fp))%Z); [|lia].
      assert (TN : forall x, (qtrunc x <= -1)%Z -> x <= - (1)).
      { intros x Hx. unfold qtrunc in Hx. dltb x 0.
        - pose proof (qfloor_spec (- x)) as [F1 _]. assert (qc 1 <= qc (qfloor (- x))) by (apply qc_le; lia).
          rewrite qc_1 in H. qlra.
        - pose proof (@qfloor_nonneg x E). lia. }
      assert (TP : forall x, (1 <= qtrunc x)%Z -> 1 <= x).
      { intros x Hx. unfold qtrunc in Hx. dltb x 0.
        - assert (0 <= qfloor (- x))%Z by (apply qfloor_nonneg; qlra). lia.
        - pose proof (qfloor_spec x) as [F1 _]. assert (qc 1 <= qc (qfloor x)) by (apply qc_le; lia).
          rewrite qc_1 in H. qlra. }
      split; intros [U1 U2]; apply TN in U1; apply TP in U2; clear - U1 U2 B1 B2;
        replace (qc 2) with (1 + 1) in * by (rewrite <- qc_1, <- qc_add; reflexivity); qlra.
    + unfold size1 in W; cbn [fst snd] in W.
      assert (B : - (1) < fq * qc n - fp * qc n /\ fq * qc n - fp * qc n < 1).
      { replace (fq * qc n - fp * qc n) with ((fq - fp) * qc n) by ring.
        apply qc_pos in Hn. set (d := fq - fp) in *. clearbody d. rewrite <- Ef in D1, D2.
        clear - D1 D2 W Hsz Hn Hc. clearbody n. set (N := qc n) in *. clearbody N.
        set (s := hi - lo) in *. clearbody s.
        assert (A1 : (d * N) * s < 1 * s). { apply Qclt_le_trans with (cutoff * N); [|qlra]. qnra. }
        assert (A2 : (- (1)) * s < (d * N) * s). { apply Qcle_lt_trans with (- cutoff * N); [qlra|]. qnra. }
        split; qnra. }
      destruct B as [B1 B2]. pose proof (@trunc_near (fp * qc n) (fq * qc n) B1 B2). lia. Qed.
