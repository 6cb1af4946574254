(** Rounding errors of the mesh, one coordinate. *)
From Coq Require Import ZArith Reals Psatz List.
From Flocq Require Import Core BinarySingleNaN Relative.
From Verif Require Import Base BaseFacts CoordSys Queue Float FloatFacts FloatVector FloatVectorFacts FloatMin FloatCell SpecFloatCell FloatCellNum FloatController SpecFloatSearch FloatStencil FloatMesh SpecFloatMesh.
From Coq Require Import Lra.
Import ListNotations.
Open Scope list_scope.
Open Scope R_scope.

Notation zero := (B754_zero false : double).

Section Coord.
  Variables (b : fbox) (m : nat) (per : bool).
  Hypothesis Gb : good_box b.
  Hypothesis Hm : (1 <= m)%nat.
  Hypothesis Hf : 2 * INR m * resolution b <= fbox_size b.
  Notation lo := (fst b).
  Notation hi := (snd b).
  Let s := fbox_size b.
  Let D := intervals per m.
  Let u := pw (-53).

  Lemma sp : 0 < s.
  Proof. exact (s_pos b Gb). Qed.
  Lemma mp : 1 <= INR m.
  Proof. apply (le_INR 1 m) in Hm. exact Hm. Qed.
  Lemma res_eq : resolution b = u * (4 * Rabs (val lo) + 4096 * s).
  Proof. unfold resolution. fold s. change (pw 10) with 1024. assert (E51 : pw (-51) = 4 * pw (-53)) by (change 4 with (pw 2); rewrite pw_mul; reflexivity). rewrite E51. unfold u. ring. Qed.
  Lemma up : 0 < u.
  Proof. apply pw_pos. Qed.
  Lemma u_small : u <= / 4096 / 4096.
  Proof. unfold u. replace (/ 4096 / 4096) with (pw (-24)); [apply pw_le; lia|]. change 4096 with (pw 12). rewrite <- bpow_opp. unfold Rdiv. rewrite <- bpow_opp, pw_mul. reflexivity. Qed.
  Lemma res_pos : u * (4 * Rabs (val lo)) >= 0 /\ 4096 * (u * s) <= resolution b.
  Proof. rewrite res_eq. pose proof up. pose proof (Rabs_pos (val lo)). pose proof sp. split; nra. Qed.
  Lemma m_small : INR m <= pw 40.
  Proof. destruct res_pos as (_ & R). pose proof sp as P. pose proof mp. assert (E : pw 40 * (8192 * u) = 1). { change 8192 with (pw 13). unfold u. rewrite !pw_mul. reflexivity. }
    pose proof (pw_pos 40) as P40. apply (Rmult_le_reg_r (8192 * u)); [pose proof up; lra|]. rewrite E. apply (Rmult_le_reg_r s); auto. pose proof up. fold s in Hf.
    assert (INR m * (4096 * (u * s)) <= INR m * resolution b) by (apply Rmult_le_compat_l; lra). lra. Qed.
  Lemma mz : (Z.of_nat m <= 2 ^ 40)%Z.
  Proof. pose proof m_small as M. rewrite INR_IZR_INZ in M. change (pw 40) with (IZR (2 ^ 40)) in M. apply le_IZR. exact M. Qed.
  Lemma nat_val i : (i <= 2 * m)%nat -> fin (of_int (Z.of_nat i)) /\ val (of_int (Z.of_nat i)) = INR i.
  Proof. intros L. pose proof mz. rewrite INR_IZR_INZ. apply of_int_val. lia. Qed.
  Lemma D_bounds : (1 <= D)%nat /\ (D <= m)%nat.
  Proof. unfold D, intervals. destruct per; lia. Qed.
  Lemma D_pos : 1 <= INR D.
  Proof. destruct D_bounds as (L & _). apply (le_INR 1) in L. exact L. Qed.
  Lemma D_le : INR D <= INR m.
  Proof. apply le_INR. apply D_bounds. Qed.
  Lemma tiny_s : pw (-1034) <= pw (-60) * s.
  Proof. destruct (size_ok b Gb) as (_ & Ls & _). change (val (fsize (fst b) (snd b))) with s in Ls. apply Rle_trans with (pw (-60) * pw (-400)); [rewrite pw_mul; apply pw_le; lia|]. apply Rmult_le_compat_l; [left; apply pw_pos|auto]. Qed.
  Lemma tiny_u : pw (-1034) <= / 100 * (u * s) /\ pw (-1075) <= pw (-1034) /\ 0 < pw (-1075) /\ pw 41 * pw (-1075) = pw (-1034).
  Proof. pose proof tiny_s as T. pose proof sp as P. split; [|split; [apply pw_le; lia|split; [apply pw_pos|apply pw_mul]]].
    assert (E : pw (-53) = 128 * pw (-60)) by (change 128 with (pw 7); rewrite pw_mul; reflexivity). unfold u. rewrite E. pose proof (pw_pos (-60)). nra. Qed.

  (** the quotient of the size and a positive integer *)
  Lemma quotient n : (1 <= n <= 2 * m)%nat -> let q := fdiv (fsub hi lo) (of_int (Z.of_nat n)) in
    fin q /\ Rabs (val q - s / INR n) <= u * (s / INR n) + pw (-1075) /\ 0 < val q.
  Proof. intros Hn q. destruct (size_ok b Gb) as (Fs & Ls & Us). change (val (fsize (fst b) (snd b))) with s in *. destruct (nat_val n ltac:(lia)) as (Fn & Vn).
    assert (Pn : 1 <= INR n) by (destruct Hn as (L & _); apply (le_INR 1) in L; exact L). pose proof sp as P.
    assert (Q : 0 < s / INR n <= s). { split; [apply Rdiv_lt_0_compat; lra|]. apply (Rmult_le_reg_r (INR n)); [lra|]. unfold Rdiv. rewrite Rmult_assoc, Rinv_l by lra. nra. }
    assert (B : Rabs (s / INR n) <= pw 401) by (rewrite Rabs_pos_eq; lra).
    destruct (fdiv_val (fsub hi lo) (of_int (Z.of_nat n)) 401 ltac:(lia) Fs Fn ltac:(rewrite Vn; lra)) as (F & V). { rewrite Vn. exact B. }
    rewrite Vn in V. change (val (fsub hi lo)) with s in V. fold q in F, V. pose proof (rnd_rel (s / INR n)) as R. rewrite (Rabs_pos_eq (s / INR n)) in R by lra. fold u in R. split; auto. rewrite V. split; [exact R|].
    destruct tiny_u as (T1 & T2 & T3 & T4). pose proof u_small as U. pose proof up as Pu.
    assert (L : s / INR n >= s / (2 * INR m)). { destruct Hn as (_ & Hn). apply le_INR in Hn. rewrite mult_INR in Hn. change (INR 2) with 2 in Hn. apply Rle_ge. unfold Rdiv. apply Rmult_le_compat_l; [lra|]. apply Rinv_le; lra. }
    assert (L2 : s / (2 * INR m) >= resolution b). { pose proof mp. apply Rle_ge. apply (Rmult_le_reg_r (2 * INR m)); [lra|]. unfold Rdiv. rewrite Rmult_assoc, Rinv_l by lra. fold s in Hf. lra. }
    destruct res_pos as (_ & Rp). rewrite abs_le in R. nra. Qed.

  (** [np.linspace] before the last number is replaced *)
  Definition raw (i : nat) : double :=
    let div := of_int (if per then Z.of_nat m else Z.of_nat m - 1) in
    let step := fdiv (fsub hi lo) div in
    let y := of_int (Z.of_nat i) in
    fadd (if (1 <? m)%nat then if Beqb step zero then fmul (fdiv y div) (fsub hi lo) else fmul y step else fmul y (fsub hi lo)) lo.
  Lemma raw_val i : (i < m)%nat -> fin (raw i) /\ Rabs (val (raw i) - exact_coord per b m i) <= u * (Rabs (val lo) + 4 * s).
  Proof. intros Hi. unfold exact_coord. fold s D. pose proof sp as P. pose proof up as Pu. pose proof u_small as Us. destruct tiny_u as (T1 & T2 & T3 & T4). destruct Gb as (Fl & Fh & Llh & Bl & Bh & _). destruct (size_ok b Gb) as (Fs & Ls & Usz). change (val (fsize (fst b) (snd b))) with s in *.
    assert (Pus : 0 < u * s) by nra. pose proof (Rabs_pos (val lo)) as Pl.
    assert (ADD : forall y t, fin y -> 0 <= t <= s -> Rabs (val y - t) <= 2 * (u * s) + u * (u * s) + / 50 * (u * s) -> fin (fadd y lo) /\ Rabs (val (fadd y lo) - (val lo + t)) <= u * (Rabs (val lo) + 4 * s)).
    { intros y t Fy Ht E. rewrite abs_le in E. assert (S1 : u * (u * s) <= / 100 * (u * s)) by nra. assert (S2 : u * s <= / 100 * s) by nra.
      assert (B1 : Rabs (val y + val lo) <= Rabs (val lo) + (1 + / 10) * s). { eapply Rle_trans; [apply Rabs_triang|]. assert (Rabs (val y) <= (1 + / 10) * s) by (apply Rabs_le; lra). lra. }
      assert (B : Rabs (val y + val lo) <= pw 402). { eapply Rle_trans; [exact B1|]. assert (E1 : pw 402 = 4 * pw 400) by (change 4 with (pw 2); rewrite pw_mul; reflexivity). assert (E2 : pw 401 = 2 * pw 400) by (change 2 with (pw 1); rewrite pw_mul; reflexivity). lra. }
      destruct (fadd_val y lo 402 ltac:(lia) Fy Fl B) as (F & V). split; auto. rewrite V. pose proof (rnd_rel (val y + val lo)) as R. fold u in R. set (w := rnd (val y + val lo)) in *.
      assert (R2 : u * Rabs (val y + val lo) <= u * Rabs (val lo) + (1 + / 10) * (u * s)). { apply Rle_trans with (u * (Rabs (val lo) + (1 + / 10) * s)); [apply Rmult_le_compat_l; lra|]. right. ring. }
      rewrite (abs_le (w - _)) in R. rewrite Rmult_plus_distr_l. apply abs_le. lra. }
    unfold raw. destruct (Nat.ltb_spec 1 m) as [L|L].
    - assert (ED : of_int (if per then Z.of_nat m else Z.of_nat m - 1) = of_int (Z.of_nat D)). { unfold D, intervals. destruct per; auto. f_equal. lia. }
      rewrite ED. destruct D_bounds as (D1 & D2). destruct (quotient D ltac:(lia)) as (Fq & Eq & Pq). set (q := fdiv (fsub hi lo) (of_int (Z.of_nat D))) in *.
      assert (NZ : Beqb q zero = false). { destruct (Beqb q zero) eqn:Z; auto. rewrite Beqb_correct in Z by auto. apply Req_bool_true_iff in Z || idtac. exfalso. revert Z. unfold Req_bool. destruct (Rcompare_spec (val q) (val zero)); try discriminate. change (val zero) with 0 in *. lra. }
      rewrite NZ. destruct (nat_val i ltac:(lia)) as (Fi & Vi). pose proof D_pos as PD. pose proof D_le as LD. pose proof (pos_INR i) as Pi.
      assert (LiD : INR i <= INR D). { apply le_INR. unfold D, intervals. destruct per; lia. }
      assert (T : 0 <= INR i * (s / INR D) <= s). { assert (0 < s / INR D) by (apply Rdiv_lt_0_compat; lra). split; [nra|]. replace s with (INR D * (s / INR D)) at 2 by (field; lra). apply Rmult_le_compat_r; lra. }
      set (t := INR i * (s / INR D)) in *.
      assert (Et : INR i * (u * (s / INR D) + pw (-1075)) <= u * s + / 100 * (u * s)).
      { rewrite Rmult_plus_distr_l. replace (INR i * (u * (s / INR D))) with (u * t) by (unfold t; ring). apply Rplus_le_compat; [apply Rmult_le_compat_l; lra|].
        apply Rle_trans with (pw 41 * pw (-1075)); [|lra]. apply Rmult_le_compat_r; [lra|]. apply Rle_trans with (INR m); [lra|]. apply Rle_trans with (pw 40); [apply m_small|apply pw_le; lia]. }
      assert (Eiq : Rabs (INR i * val q - t) <= u * s + / 100 * (u * s)). { unfold t. rewrite <- Rmult_minus_distr_l, Rabs_mult, (Rabs_pos_eq (INR i)) by auto. eapply Rle_trans; [|exact Et]. apply Rmult_le_compat_l; auto. }
      rewrite abs_le in Eiq. assert (S2 : u * s <= / 100 * s) by nra.
      assert (Biq : Rabs (INR i * val q) <= (1 + / 10) * s) by (apply Rabs_le; lra).
      assert (B : Rabs (val (of_int (Z.of_nat i)) * val q) <= pw 402). { rewrite Vi. eapply Rle_trans; [exact Biq|]. assert (E1 : pw 402 = 4 * pw 400) by (change 4 with (pw 2); rewrite pw_mul; reflexivity). assert (E2 : pw 401 = 2 * pw 400) by (change 2 with (pw 1); rewrite pw_mul; reflexivity). lra. }
      destruct (fmul_val (of_int (Z.of_nat i)) q 402 ltac:(lia) Fi Fq B) as (Fy & Vy). rewrite Vi in Vy. apply ADD; auto. rewrite Vy. pose proof (rnd_rel (INR i * val q)) as R. fold u in R.
      assert (Hs : Rabs (INR i * val q) <= s + u * s + / 100 * (u * s)) by (apply Rabs_le; lra).
      assert (R2 : u * Rabs (INR i * val q) <= u * s + u * (u * s) + / 1000 * (u * s)). { apply Rle_trans with (u * (s + u * s + / 100 * (u * s))); [apply Rmult_le_compat_l; lra|]. nra. }
      rewrite (abs_le (rnd _ - _)) in R. apply abs_le. assert (pw (-1075) <= / 1000 * (u * s)); [|lra].
      assert (1000000 * pw (-1075) <= pw (-1034)); [|lra]. rewrite <- T4. apply Rmult_le_compat_r; [lra|]. apply Rle_trans with (pw 20); [|apply pw_le; lia]. change (pw 20) with 1048576. lra.
    - assert (i = 0%nat) by lia. subst i. destruct (nat_val 0 ltac:(lia)) as (F0 & V0). change (INR 0) with 0 in *. rewrite Rmult_0_l.
      assert (B : Rabs (val (of_int (Z.of_nat 0)) * val (fsub hi lo)) <= pw 401). { rewrite V0, Rmult_0_l, Rabs_R0. left. apply pw_pos. }
      destruct (fmul_val (of_int (Z.of_nat 0)) (fsub hi lo) 401 ltac:(lia) F0 Fs B) as (Fy & Vy). apply ADD; auto; [lra|]. rewrite Vy, V0, Rmult_0_l, rnd_0. rewrite Rminus_0_r, Rabs_R0. nra. Qed.

  (** one number of the mesh *)
  Definition coord (i : nat) : double := if (negb per && (1 <? m) && (S i =? m))%nat%bool then hi else raw i.
  Lemma coords_eq : flinspace lo hi m (negb per) = map coord (seq 0 m).
  Proof. unfold flinspace, coord, raw. apply map_ext. intros i. destruct per; reflexivity. Qed.
  Lemma err_res : u * (Rabs (val lo) + 4 * s) <= resolution b / 4.
  Proof. rewrite res_eq. pose proof up. pose proof sp. pose proof (Rabs_pos (val lo)). nra. Qed.
  Lemma coord_val i : (i < m)%nat -> fin (coord i) /\ Rabs (val (coord i) - exact_coord per b m i) <= resolution b / 4.
  Proof. intros Hi. destruct (raw_val i Hi) as (F & E). pose proof err_res as ER. unfold coord. destruct (negb per && (1 <? m)%nat && (S i =? m)%nat)%bool eqn:C; [|split; auto; lra].
    apply andb_true_iff in C as (C & C3). apply andb_true_iff in C as (C1 & C2). apply Nat.eqb_eq in C3. apply Nat.ltb_lt in C2. apply negb_true_iff in C1.
    destruct Gb as (Fl & Fh & L & Bl & Bh & Ls). split; [exact Fh|]. unfold exact_coord. fold s D. assert (E1 : D = i). { unfold D, intervals. rewrite C1. lia. }
    rewrite E1. pose proof D_pos as PD. rewrite E1 in PD. replace (INR i * (s / INR i)) with s by (field; lra).
    destruct (size_val lo hi Fl Fh L) as (_ & V & _); [apply Rle_trans with (pw 400); auto; apply pw_le; lia..|]. change (val (fsize lo hi)) with s in V.
    pose proof (rnd_rel (val hi - val lo)) as R. rewrite <- V in R. fold u in R. pose proof sp as P. pose proof up as Pu. pose proof u_small. destruct tiny_u as (T1 & T2 & T3 & _). destruct res_pos as (_ & Rp).
    rewrite (Rabs_pos_eq (val hi - val lo)) in R by lra. rewrite abs_le in R. apply abs_le. assert (Q : val hi - val lo <= 2 * s) by nra. assert (u * (val hi - val lo) <= 2 * (u * s)) by nra. lra. Qed.

  Lemma spacing : s / INR m <= s / INR D /\ 2 * resolution b <= s / INR m.
  Proof. pose proof mp. pose proof D_pos. pose proof D_le. pose proof sp. fold s in Hf. split.
    - unfold Rdiv. apply Rmult_le_compat_l; [lra|]. apply Rinv_le; lra.
    - apply (Rmult_le_reg_r (INR m)); [lra|]. replace (s / INR m * INR m) with s by (field; lra). lra. Qed.
  Lemma coord_increasing i j : (i < j)%nat -> (j < m)%nat -> val (coord i) + resolution b < val (coord j).
  Proof. intros L Hj. destruct (coord_val i ltac:(lia)) as (_ & Ei). destruct (coord_val j Hj) as (_ & Ej). rewrite abs_le in Ei, Ej. unfold exact_coord in *. fold s D in Ei, Ej. destruct spacing as (S1 & S2).
    assert (R : 0 < resolution b). { destruct res_pos as (_ & R). pose proof sp. pose proof up. nra. }
    assert (INR i + 1 <= INR j) by (rewrite <- S_INR; apply le_INR; lia). set (h := s / INR D) in *. assert ((INR i + 1) * h <= INR j * h) by (apply Rmult_le_compat_r; lra). lra. Qed.
  Lemma res_gt : 0 < resolution b.
  Proof. destruct res_pos as (_ & R). pose proof sp. pose proof up. nra. Qed.

  (** mesh points lie in the box *)
  Lemma coord_first : val (coord 0) = val lo.
  Proof. unfold coord. assert (E : (1 <? m)%nat && (1 =? m)%nat = false) by (destruct (Nat.ltb_spec 1 m), (Nat.eqb_spec 1 m); auto; lia).
    rewrite <- andb_assoc, E, andb_false_r. destruct Gb as (Fl & Fh & Llh & Bl & Bh & _). destruct (size_ok b Gb) as (Fs & Ls & Usz). change (val (fsize (fst b) (snd b))) with s in *. destruct (nat_val 0 ltac:(lia)) as (F0 & V0). change (INR 0) with 0 in V0.
    assert (Z : forall y, fin y -> val y = 0 -> val (fadd y lo) = val lo). { intros y Fy Vy. assert (B : Rabs (val y + val lo) <= pw 400) by (rewrite Vy, Rplus_0_l; auto). destruct (fadd_val y lo 400 ltac:(lia) Fy Fl B) as (_ & V). rewrite V, Vy, Rplus_0_l. apply rnd_id, val_format. }
    assert (M : forall y, fin y -> fin (fmul (of_int (Z.of_nat 0)) y) /\ val (fmul (of_int (Z.of_nat 0)) y) = 0). { intros y Fy. assert (B : Rabs (val (of_int (Z.of_nat 0)) * val y) <= pw 0). { rewrite V0, Rmult_0_l, Rabs_R0. left. apply pw_pos. } destruct (fmul_val _ y 0 ltac:(lia) F0 Fy B) as (F & V). split; auto. rewrite V, V0, Rmult_0_l. apply rnd_0. }
    unfold raw. destruct (Nat.ltb_spec 1 m) as [L|L]; [|apply Z; apply M; auto].
    assert (ED : of_int (if per then Z.of_nat m else Z.of_nat m - 1) = of_int (Z.of_nat D)). { unfold D, intervals. destruct per; auto. f_equal. lia. }
    rewrite ED. destruct D_bounds as (D1 & D2). destruct (quotient D ltac:(lia)) as (Fq & Eq & Pq). set (q := fdiv (fsub hi lo) (of_int (Z.of_nat D))) in *.
    destruct (Beqb q zero) eqn:Bq; [|apply Z; apply M; auto]. exfalso. rewrite Beqb_correct in Bq by auto. revert Bq. unfold Req_bool. destruct (Rcompare_spec (val q) (val zero)); try discriminate. change (val zero) with 0 in *. lra. Qed.
  Lemma coord_last : per = false -> (1 < m)%nat -> coord (m - 1) = hi.
  Proof. intros Ep L. unfold coord. rewrite Ep. assert (E1 : (1 <? m)%nat = true) by (apply Nat.ltb_lt; auto). assert (E2 : (S (m - 1) =? m)%nat = true) by (apply Nat.eqb_eq; lia). rewrite E1, E2. reflexivity. Qed.
  Lemma hi_near : Rabs (val hi - (val lo + s)) <= resolution b / 4.
  Proof. destruct Gb as (Fl & Fh & L & Bl & Bh & Ls). destruct (size_val lo hi Fl Fh L) as (_ & V & _); [apply Rle_trans with (pw 400); auto; apply pw_le; lia..|]. change (val (fsize lo hi)) with s in V.
    pose proof (rnd_rel (val hi - val lo)) as R. rewrite <- V in R. fold u in R. pose proof sp as P. pose proof up as Pu. pose proof u_small. destruct tiny_u as (T1 & T2 & T3 & _). destruct res_pos as (_ & Rp).
    rewrite (Rabs_pos_eq (val hi - val lo)) in R by lra. rewrite abs_le in R. apply abs_le. assert (Q : val hi - val lo <= 2 * s) by nra. assert (u * (val hi - val lo) <= 2 * (u * s)) by nra. lra. Qed.
  Lemma coord_inside i : (i < m)%nat -> val lo <= val (coord i) <= val hi /\ (per = true \/ (S i < m)%nat -> val (coord i) < val hi).
  Proof. intros Hi. pose proof res_gt as R. split.
    - split.
      + destruct i as [|i]; [rewrite coord_first; lra|]. pose proof (coord_increasing 0 (S i) ltac:(lia) Hi). rewrite coord_first in *. lra.
      + destruct (Nat.eq_dec (S i) m) as [E|N].
        * destruct (Bool.bool_dec per true) as [Ep|Ep]; [|apply not_true_iff_false in Ep].
          -- destruct (coord_val i Hi) as (_ & Ei). rewrite abs_le in Ei. unfold exact_coord in Ei. fold s D in Ei. pose proof hi_near as Hn. rewrite abs_le in Hn. destruct spacing as (S1 & S2). pose proof D_pos.
             assert (ED : D = S i) by (unfold D, intervals; rewrite Ep; lia). rewrite ED in *. rewrite S_INR in *. replace (INR i * (s / (INR i + 1))) with (s - s / (INR i + 1)) in Ei by (field; lra). lra.
          -- destruct (Nat.eq_dec m 1) as [M1|M1].
             { assert (i = 0%nat) by lia. subst i. rewrite coord_first. destruct Gb as (_ & _ & L & _). lra. }
             replace i with (m - 1)%nat by lia. rewrite coord_last by (auto; lia). lra.
        * destruct (coord_val i Hi) as (_ & Ei). rewrite abs_le in Ei. unfold exact_coord in Ei. fold s D in Ei. pose proof hi_near as Hn. rewrite abs_le in Hn. destruct spacing as (S1 & S2). pose proof D_pos.
          assert (INR i + 1 <= INR D) by (rewrite <- S_INR; apply le_INR; unfold D, intervals; destruct per; lia). set (h := s / INR D) in *. assert ((INR i + 1) * h <= INR D * h) by (apply Rmult_le_compat_r; lra).
          assert (INR D * h = s) by (unfold h; field; lra). lra.
    - intros C. destruct (coord_val i Hi) as (_ & Ei). rewrite abs_le in Ei. unfold exact_coord in Ei. fold s D in Ei. pose proof hi_near as Hn. rewrite abs_le in Hn. destruct spacing as (S1 & S2). pose proof D_pos.
      assert (INR i + 1 <= INR D). { rewrite <- S_INR; apply le_INR; unfold D, intervals; destruct per, C; try lia; discriminate. } set (h := s / INR D) in *. assert ((INR i + 1) * h <= INR D * h) by (apply Rmult_le_compat_r; lra).
      assert (INR D * h = s) by (unfold h; field; lra). lra. Qed.

  (** the second vertex in the direction of this coordinate *)
  Let dist := fdiv (fsub hi lo) (of_int (2 * Z.of_nat m)).
  Lemma dist_val : fin dist /\ Rabs (val dist - s / (2 * INR m)) <= 2 * (u * s) /\ 0 < val dist.
  Proof. destruct (quotient (2 * m) ltac:(lia)) as (F & E & P). rewrite Nat2Z.inj_mul in *. change (Z.of_nat 2) with 2%Z in *. split; auto. split; auto. fold dist in E. rewrite mult_INR in E. change (INR 2) with 2 in E. eapply Rle_trans; [exact E|].
    destruct tiny_u as (T1 & T2 & T3 & _). pose proof sp. pose proof up. pose proof mp. assert (s / (2 * INR m) <= s). { apply (Rmult_le_reg_r (2 * INR m)); [lra|]. unfold Rdiv. rewrite Rmult_assoc, Rinv_l by lra. nra. } nra. Qed.
  Lemma plus_zero x : fin x -> val (fadd x zero) = val x /\ fin (fadd x zero).
  Proof. intros Fx. assert (FZ : fin zero) by reflexivity. pose proof (Bplus_correct 53 1024 _ _ mode_NE x zero Fx FZ) as C. change (B2R zero) with 0 in C. rewrite Rplus_0_r in C. change (round radix2 FE (round_mode mode_NE) (B2R x)) with (rnd (val x)) in C.
    rewrite (rnd_id (val x) (val_format x)) in C. rewrite Rlt_bool_true in C by apply abs_B2R_lt_emax. destruct C as (A & F & _). split; auto. Qed.
  Lemma plus_dist i : (i < m)%nat -> let x := coord i in fin (fadd x dist) /\ Rabs (val (fadd x dist) - (val x + s / (2 * INR m))) <= resolution b / 4 /\ val x < val (fadd x dist).
  Proof. intros Hi x. destruct (coord_val i Hi) as (Fx & _). destruct (coord_inside i Hi) as ((L1 & L2) & _). fold x in Fx, L1, L2. destruct dist_val as (Fd & Ed & Pd). pose proof sp as P. pose proof up as Pu. pose proof u_small as Us. pose proof mp. destruct tiny_u as (T1 & T2 & T3 & _). pose proof err_res as ER. pose proof hi_near as Hn. pose proof res_gt as Rg. destruct spacing as (S1 & S2).
    assert (Q : 0 < s / (2 * INR m) <= s / 2). { split; [apply Rdiv_lt_0_compat; lra|]. apply (Rmult_le_reg_r (2 * INR m)); [lra|]. unfold Rdiv. rewrite Rmult_assoc, Rinv_l by lra. nra. }
    assert (H2 : s / INR m = 2 * (s / (2 * INR m))) by (field; lra). assert (Us2 : u * s <= / 1000 * s) by nra. rewrite abs_le in Ed, Hn. pose proof (Rabs_pos (val lo)) as Pl.
    assert (B1 : Rabs (val x + val dist) <= Rabs (val lo) + 2 * s). { replace (val x + val dist) with (val lo + (val x - val lo + val dist)) by ring. eapply Rle_trans; [apply Rabs_triang|]. assert (Rabs (val x - val lo + val dist) <= 2 * s); [|lra]. apply Rabs_le. lra. }
    assert (B : Rabs (val x + val dist) <= pw 404). { eapply Rle_trans; [exact B1|]. destruct Gb as (_ & _ & _ & Bl & _). destruct (size_ok b Gb) as (_ & _ & Usz). change (val (fsize (fst b) (snd b))) with s in Usz. assert (E1 : pw 404 = 16 * pw 400) by (change 16 with (pw 4); rewrite pw_mul; reflexivity). assert (E2 : pw 401 = 2 * pw 400) by (change 2 with (pw 1); rewrite pw_mul; reflexivity). pose proof (pw_pos 400). lra. }
    destruct (fadd_val x dist 404 ltac:(lia) Fx Fd B) as (F & V). split; auto. pose proof (rnd_rel (val x + val dist)) as R. fold u in R. rewrite <- V in R.
    assert (R2 : u * Rabs (val x + val dist) <= u * (Rabs (val lo) + 2 * s)) by (apply Rmult_le_compat_l; lra). rewrite Rmult_plus_distr_l in R2. rewrite res_eq in *. rewrite abs_le in R. pose proof (Rmult_le_pos _ _ (Rlt_le _ _ Pu) Pl).
    assert (Er : Rabs (val (fadd x dist) - (val x + s / (2 * INR m))) <= u * (4 * Rabs (val lo) + 4096 * s) / 4) by (apply abs_le; nra).
    split; auto. rewrite abs_le in Er. lra. Qed.
  (** mesh points and displaced mesh points are apart by almost half the spacing *)
  Lemma displaced_apart i j : (i < m)%nat -> (j < m)%nat -> s / (2 * INR m) - 3 * resolution b / 4 <= Rabs (val (coord i) - val (fadd (coord j) dist)).
  Proof. intros Hi Hj. destruct (coord_val i Hi) as (_ & Ei). destruct (coord_val j Hj) as (_ & Ej). destruct (plus_dist j Hj) as (_ & Ed & _). unfold exact_coord in *. fold s D in Ei, Ej. destruct spacing as (S1 & S2). pose proof mp. rewrite abs_le in Ei, Ej, Ed.
    assert (H2 : s / INR m = 2 * (s / (2 * INR m))) by (field; lra). set (h := s / INR D) in *. set (g := s / (2 * INR m)) in *.
    destruct (Nat.le_gt_cases i j) as [L|L].
    - assert (INR i * h <= INR j * h). { apply le_INR in L. pose proof res_gt. apply Rmult_le_compat_r; lra. }
      rewrite Rabs_minus_sym. eapply Rle_trans; [|apply Rle_abs]. lra.
    - assert ((INR j + 1) * h <= INR i * h). { assert (INR j + 1 <= INR i) by (rewrite <- S_INR; apply le_INR; lia). pose proof res_gt. apply Rmult_le_compat_r; lra. }
      eapply Rle_trans; [|apply Rle_abs]. lra. Qed.
  Lemma points_apart i j : (i < m)%nat -> (j < m)%nat -> i <> j -> s / INR m - resolution b / 2 <= Rabs (val (coord i) - val (coord j)).
  Proof. intros Hi Hj N. destruct (coord_val i Hi) as (_ & Ei). destruct (coord_val j Hj) as (_ & Ej). unfold exact_coord in *. fold s D in Ei, Ej. destruct spacing as (S1 & S2). rewrite abs_le in Ei, Ej. pose proof res_gt. set (h := s / INR D) in *.
    destruct (Nat.lt_ge_cases i j) as [L|L].
    - assert ((INR i + 1) * h <= INR j * h). { assert (INR i + 1 <= INR j) by (rewrite <- S_INR; apply le_INR; lia). apply Rmult_le_compat_r; lra. }
      rewrite Rabs_minus_sym. eapply Rle_trans; [|apply Rle_abs]. lra.
    - assert ((INR j + 1) * h <= INR i * h). { assert (INR j + 1 <= INR i) by (rewrite <- S_INR; apply le_INR; lia). apply Rmult_le_compat_r; lra. }
      eapply Rle_trans; [|apply Rle_abs]. lra. Qed.
End Coord.
