(** Rounding errors of the cell index, of the number of cells and of the distance. *)
From Coq Require Import ZArith Reals Psatz List.
From Flocq Require Import Core BinarySingleNaN Relative.
From Verif Require Import Base Float FloatFacts FloatVector FloatVectorFacts FloatMin FloatCell SpecFloatCell.
From Coq Require Import Lra.
Import ListNotations.
Open Scope list_scope.
Open Scope R_scope.

Notation pw := (bpow radix2).
Lemma pw_le a b : (a <= b)%Z -> pw a <= pw b.
Proof. apply bpow_le. Qed.
Lemma pw_pos a : 0 < pw a.
Proof. apply bpow_gt_0. Qed.
Lemma pw_mul a b : pw a * pw b = pw (a + b).
Proof. symmetry. apply bpow_plus. Qed.

(** one rounding *)
Lemma rnd_rel x : Rabs (rnd x - x) <= pw (-53) * Rabs x + pw (-1075).
Proof. destruct (error_N_FLT radix2 (-1074) 53 ltac:(lia) (fun n => negb (Z.even n)) x) as (eps & eta & He & Ht & _ & E).
  change (round radix2 (FLT_exp (-1074) 53) (Znearest (fun n => negb (Z.even n))) x) with (rnd x) in E. rewrite E.
  replace (x * (1 + eps) + eta - x) with (eps * x + eta) by ring. eapply Rle_trans; [apply Rabs_triang|]. rewrite Rabs_mult.
  apply Rplus_le_compat.
  - apply Rmult_le_compat_r; [apply Rabs_pos|]. eapply Rle_trans; [exact He|]. change (/ 2) with (pw (-1)). rewrite pw_mul. right. reflexivity.
  - eapply Rle_trans; [exact Ht|]. change (/ 2) with (pw (-1)). rewrite pw_mul. right. reflexivity. Qed.

(** ** one coordinate *)
Section Coord.
  Variable b : fbox.
  Hypothesis Gb : good_box b.
  Notation lo := (fst b).
  Notation hi := (snd b).
  Notation Sd := (fsize (fst b) (snd b)).
  Notation s := (val (fsize (fst b) (snd b))).

  Lemma size_ok : fin Sd /\ pw (-400) <= s <= pw 401.
  Proof. destruct Gb as (Fl & Fh & L & Bl & Bh & Ls). change (fbox_size b) with s in Ls. assert (X : pw 400 <= pw 1000) by (apply pw_le; lia).
    destruct (size_val lo hi Fl Fh L ltac:(lra) ltac:(lra)) as (F & V & P & _). split; auto. split; auto. rewrite V. eapply Rle_trans; [apply Rle_abs|]. apply rnd_abs_le; [lia|].
    change 401%Z with (400 + 1)%Z. rewrite pow_succ. rewrite abs_le in *. lra. Qed.
  Lemma s_pos : 0 < s.
  Proof. pose proof size_ok. pose proof (pw_pos (-400)). lra. Qed.
  (** an absolute error of [2^-1075] is negligible *)
  Lemma tiny : pw (-1075) <= pw (-60) * s.
  Proof. destruct size_ok as (_ & Ls & _). apply Rle_trans with (pw (-60) * pw (-400)); [rewrite pw_mul; apply pw_le; lia|]. apply Rmult_le_compat_l; [left; apply pw_pos|auto]. Qed.

  (** rounding a difference of positions *)
  Lemma diff_val x y : fin x -> fin y -> Rabs (val x - val y) <= pw 11 * s -> fin (fsub x y) /\ Rabs (val (fsub x y) - (val x - val y)) <= pw (-41) * s.
  Proof. intros Fx Fy B. destruct size_ok as (Fs & Ls & Us). assert (Bb : Rabs (val x - val y) <= pw 412).
    { eapply Rle_trans; [exact B|]. change 412%Z with (11 + 401)%Z. rewrite <- pw_mul. apply Rmult_le_compat_l; [left; apply pw_pos|auto]. }
    destruct (fsub_val x y 412 ltac:(lia) Fx Fy Bb) as (F & V). split; auto. rewrite V. eapply Rle_trans; [apply rnd_rel|]. pose proof tiny as T. pose proof s_pos as P.
    assert (A : pw (-53) * Rabs (val x - val y) <= pw (-42) * s). { apply Rle_trans with (pw (-53) * (pw 11 * s)); [apply Rmult_le_compat_l; [left; apply pw_pos|auto]|]. rewrite <- Rmult_assoc, pw_mul. right. reflexivity. }
    assert (E : pw (-41) = 2 * pw (-42)) by (change (-41)%Z with (-42 + 1)%Z; apply pow_succ). assert (pw (-60) * s <= pw (-42) * s) by (apply Rmult_le_compat_r; [lra|apply pw_le; lia]). rewrite E. lra. Qed.

  (** the quotient computed for the fraction *)
  Lemma quot_val x : good_coord b x -> let y := fdiv (fsub x lo) Sd in fin y /\ Rabs (val y - (val x - val lo) / s) <= pw (-40) /\ Rabs (val y) <= pw 11.
  Proof. intros (Fx & Bx) y. change (fbox_size b) with s in Bx. destruct Gb as (Fl & _). destruct size_ok as (Fs & Ls & Us). pose proof s_pos as P. pose proof (pw_pos 10) as P10.
    assert (B : Rabs (val x - val lo) <= pw 11 * s) by (change 11%Z with (10 + 1)%Z; rewrite pow_succ; nra).
    destruct (diff_val x lo Fx Fl B) as (Fd & Ed). set (d := fsub x lo) in *.
    assert (Eq : Rabs (val d / s - (val x - val lo) / s) <= pw (-41)).
    { replace (val d / s - (val x - val lo) / s) with ((val d - (val x - val lo)) / s) by (field; lra). unfold Rdiv. rewrite Rabs_mult, (Rabs_pos_eq (/ s)) by (left; apply Rinv_0_lt_compat; lra).
      apply (Rmult_le_reg_r s); [lra|]. rewrite Rmult_assoc, Rinv_l, Rmult_1_r by lra. auto. }
    assert (Qx : Rabs ((val x - val lo) / s) <= pw 10).
    { unfold Rdiv. rewrite Rabs_mult, (Rabs_pos_eq (/ s)) by (left; apply Rinv_0_lt_compat; lra). apply (Rmult_le_reg_r s); [lra|]. rewrite Rmult_assoc, Rinv_l, Rmult_1_r by lra. auto. }
    assert (Bq : Rabs (val d / s) <= pw 11). { change 11%Z with (10 + 1)%Z. rewrite pow_succ. assert (pw (-41) <= pw 10) by (apply pw_le; lia). rewrite abs_le in *. lra. }
    destruct (fdiv_val d Sd 11 ltac:(lia) Fd Fs ltac:(lra) Bq) as (Fy & Vy). fold y in Fy, Vy. split; auto.
    split; [|rewrite Vy; apply rnd_abs_le; [lia|auto]]. pose proof (rnd_err _ 11 ltac:(lia) Bq) as Er. rewrite <- Vy in Er. change (11 - 54)%Z with (-43)%Z in Er.
    assert (pw (-43) <= pw (-41)) by (apply pw_le; lia). assert (E : pw (-40) = 2 * pw (-41)) by (change (-40)%Z with (-41 + 1)%Z; apply pow_succ). rewrite abs_le in *. lra. Qed.

  Variable n : Z.
  Hypothesis Hn : (1 <= n <= 100)%Z.
  Lemma n_bound : 1 <= IZR n <= 100.
  Proof. split; [apply (IZR_le 1)|apply (IZR_le n 100)]; lia. Qed.

  (** truncation of the scaled quotient *)
  Lemma scaled_val f k : fin f -> (0 <= k <= 11)%Z -> Rabs (val f) <= pw k ->
    fin (fmul f (of_int n)) /\ Rabs (val (fmul f (of_int n)) - IZR n * val f) <= pw (-36) /\ to_int (fmul f (of_int n)) = Ztrunc (val (fmul f (of_int n))).
  Proof. intros Ff Hk B. destruct (of_int_val n ltac:(lia)) as (Fn & Vn). pose proof n_bound as N. pose proof (Rabs_pos (val f)) as R0.
    assert (K : pw k <= pw 11) by (apply pw_le; lia). assert (Bm : Rabs (val f * val (of_int n)) <= pw 18).
    { rewrite Vn, Rabs_mult, (Rabs_pos_eq (IZR n)) by lra. change 18%Z with (11 + 7)%Z. rewrite <- pw_mul. change (pw 7) with 128. apply Rmult_le_compat; lra. }
    destruct (fmul_val f (of_int n) 18 ltac:(lia) Ff Fn Bm) as (Fm & Vm). pose proof (rnd_err _ 18 ltac:(lia) Bm) as Er. rewrite <- Vm in Er. change (18 - 54)%Z with (-36)%Z in Er. rewrite Vn in Er.
    split; auto. split; [rewrite (Rmult_comm (IZR n)); auto|]. apply to_int_val; auto. rewrite Vm. apply Rle_lt_trans with (pw 18); [apply rnd_abs_le; [lia|auto]|apply bpow_lt; lia]. Qed.

  (** the index in a periodic box *)
  Lemma index_periodic x : good_coord b x -> exists j g, fcell_index n (fget_frac lo hi x) = Zfloor g /\ Rabs (g - (IZR n * ((val x - val lo) / s) + IZR (n * j))) <= pw (-33).
  Proof. intros Gx. destruct (quot_val x Gx) as (Fy & Ey & By). set (y := fdiv (fsub x lo) Sd) in *. destruct fone_val as (F1 & V1).
    destruct (np_mod_congr y fone 0 Fy F1) as (Ff & Rf & j & e & Ef & Be); [rewrite V1; cbn; lra|lia|]. rewrite V1 in *. change (0 - 54)%Z with (-54)%Z in Be. change (np_mod y fone) with (fget_frac lo hi x) in *. set (f := fget_frac lo hi x) in *.
    destruct (scaled_val f 0 Ff ltac:(lia)) as (Fg & Eg & Tg); [change (pw 0) with 1; rewrite Rabs_pos_eq; lra|]. exists j, (val (fmul f (of_int n))). split.
    - unfold fcell_index. rewrite Tg. apply Ztrunc_floor. destruct (of_int_val n ltac:(lia)) as (Fn & Vn). pose proof n_bound as N.
      destruct (fmul_val f (of_int n) 7 ltac:(lia) Ff Fn) as (_ & Vm); [rewrite Vn, Rabs_pos_eq by nra; change (pw 7) with 128; nra|]. rewrite Vm. apply rnd_pos. rewrite Vn. nra.
    - rewrite mult_IZR. pose proof n_bound as N. set (X := (val x - val lo) / s) in *. set (G := val (fmul f (of_int n))) in *. rewrite Ef in Eg.
      assert (A : Rabs (IZR n * (val y - X)) <= 100 * pw (-40)) by (rewrite Rabs_mult, (Rabs_pos_eq (IZR n)) by lra; pose proof (Rabs_pos (val y - X)); nra).
      assert (C : Rabs (IZR n * e) <= 100 * pw (-54)) by (rewrite Rabs_mult, (Rabs_pos_eq (IZR n)) by lra; pose proof (Rabs_pos e); nra).
      assert (E1 : 128 * pw (-40) = pw (-33)) by (change 128 with (pw 7); apply pw_mul). assert (E2 : 16 * pw (-40) = pw (-36)) by (change 16 with (pw 4); apply pw_mul). assert (E3 : pw (-54) <= / 100 * pw (-40)).
      { change (-54)%Z with (-14 + -40)%Z. rewrite <- pw_mul. apply Rmult_le_compat_r; [left; apply pw_pos|]. change (pw (-14)) with (/ 16384). lra. }
      pose proof (pw_pos (-40)). rewrite abs_le in *. nra. Qed.
  (** the index in a box that is not periodic *)
  Lemma index_open x : good_coord b x -> exists g, to_int (fmul (fdiv (fsub x lo) Sd) (of_int n)) = Ztrunc g /\ Rabs (g - IZR n * ((val x - val lo) / s)) <= pw (-33) + pw (-36).
  Proof. intros Gx. destruct (quot_val x Gx) as (Fy & Ey & By). set (y := fdiv (fsub x lo) Sd) in *. destruct (scaled_val y 11 Fy ltac:(lia) By) as (Fg & Eg & Tg). exists (val (fmul y (of_int n))). split; auto.
    pose proof n_bound as N. set (X := (val x - val lo) / s) in *. assert (A : Rabs (IZR n * (val y - X)) <= 100 * pw (-40)) by (rewrite Rabs_mult, (Rabs_pos_eq (IZR n)) by lra; pose proof (Rabs_pos (val y - X)); nra).
    assert (E1 : 128 * pw (-40) = pw (-33)) by (change 128 with (pw 7); apply pw_mul). pose proof (pw_pos (-40)). rewrite abs_le in *. lra. Qed.

  (** floors of close numbers are neighbours *)
  Lemma floor_close u v : Rabs (u - v) < 1 -> (-1 <= Zfloor u - Zfloor v <= 1)%Z.
  Proof. intros H. apply Rabs_def2 in H. pose proof (Zfloor_lb u). pose proof (Zfloor_ub u). pose proof (Zfloor_lb v). pose proof (Zfloor_ub v).
    assert (IZR (Zfloor u - Zfloor v) < 2) by (rewrite minus_IZR; lra). assert (-2 < IZR (Zfloor u - Zfloor v)) by (rewrite minus_IZR; lra).
    split; [apply Z.lt_pred_le|apply Z.lt_succ_r]; apply lt_IZR; cbn; lra. Qed.
  Lemma trunc_close u v : Rabs (u - v) < 1 -> (-1 <= Ztrunc u - Ztrunc v <= 1)%Z.
  Proof. intros H. pose proof (floor_close u v H) as Fl. assert (Fc : (-1 <= Zceil u - Zceil v <= 1)%Z).
    { unfold Zceil. pose proof (floor_close (- u) (- v)) as G. replace (- u - - v) with (- (u - v)) in G by ring. rewrite Rabs_Ropp in G. specialize (G H). lia. }
    unfold Ztrunc. apply Rabs_def2 in H. destruct (Rlt_bool_spec u 0) as [Hu|Hu], (Rlt_bool_spec v 0) as [Hv|Hv]; auto.
    - assert (Zceil u <= 0)%Z by (apply Zceil_glb; cbn; lra). assert (0 <= Zfloor v)%Z by (apply Zfloor_lub; cbn; lra). assert (-1 < u) by lra. assert (v < 1) by lra.
      assert (0 <= Zceil u)%Z by (apply Z.lt_pred_le; apply lt_IZR; eapply Rlt_le_trans; [|apply Zceil_ub]; cbn; lra). assert (Zfloor v <= 0)%Z by (apply Z.lt_succ_r, lt_IZR; eapply Rle_lt_trans; [apply Zfloor_lb|]; cbn; lra). lia.
    - assert (Zceil v <= 0)%Z by (apply Zceil_glb; cbn; lra). assert (0 <= Zfloor u)%Z by (apply Zfloor_lub; cbn; lra). assert (-1 < v) by lra. assert (u < 1) by lra.
      assert (0 <= Zceil v)%Z by (apply Z.lt_pred_le; apply lt_IZR; eapply Rlt_le_trans; [|apply Zceil_ub]; cbn; lra). assert (Zfloor u <= 0)%Z by (apply Z.lt_succ_r, lt_IZR; eapply Rle_lt_trans; [apply Zfloor_lb|]; cbn; lra). lia. Qed.

  (** close positions have neighbouring indices *)
  Lemma near_periodic x y k : good_coord b x -> good_coord b y -> IZR n * Rabs (val x - val y - IZR k * s) <= s * (1 - pw (-31)) ->
    exists o, (-1 <= o <= 1)%Z /\ (fcell_index n (fget_frac lo hi x) mod n = (fcell_index n (fget_frac lo hi y) + o) mod n)%Z.
  Proof. intros Gx Gy H. pose proof s_pos as P. destruct (index_periodic x Gx) as (jx & gx & -> & Ex). destruct (index_periodic y Gy) as (jy & gy & -> & Ey).
    set (K := (n * (jx - jy + k))%Z). assert (E : Zfloor (gy + IZR K) = (Zfloor gy + K)%Z).
    { apply Zfloor_imp. rewrite !plus_IZR. pose proof (Zfloor_lb gy). pose proof (Zfloor_ub gy). split; lra. }
    assert (C : Rabs (gx - (gy + IZR K)) < 1).
    { assert (D : Rabs (IZR n * ((val x - val lo) / s) - IZR n * ((val y - val lo) / s) - IZR (n * k)) <= 1 - pw (-31)).
      { rewrite mult_IZR. replace (IZR n * ((val x - val lo) / s) - IZR n * ((val y - val lo) / s) - IZR n * IZR k) with (IZR n * (val x - val y - IZR k * s) / s) by (field; lra).
        unfold Rdiv. rewrite Rabs_mult, (Rabs_pos_eq (/ s)) by (left; apply Rinv_0_lt_compat; lra). pose proof n_bound as N. rewrite Rabs_mult, (Rabs_pos_eq (IZR n)) by lra.
        apply (Rmult_le_reg_r s); [lra|]. rewrite Rmult_assoc, Rinv_l, Rmult_1_r by lra. lra. }
      assert (EK : IZR K = IZR (n * jx) - IZR (n * jy) + IZR (n * k)) by (unfold K; rewrite <- minus_IZR, <- plus_IZR; f_equal; ring). rewrite EK.
      assert (E31 : pw (-31) = 4 * pw (-33)) by (change 4 with (pw 2); rewrite pw_mul; reflexivity). pose proof (pw_pos (-33)). apply Rabs_def1; rewrite abs_le in *; lra. }
    apply floor_close in C. rewrite E in C. exists (Zfloor gx - (Zfloor gy + K))%Z. split; [lia|].
    replace (Zfloor gx) with (Zfloor gy + (Zfloor gx - (Zfloor gy + K)) + (jx - jy + k) * n)%Z at 1 by (unfold K; ring). apply Z.mod_add. lia. Qed.
  Lemma near_open x y : good_coord b x -> good_coord b y -> IZR n * Rabs (val x - val y) <= s * (1 - pw (-31)) ->
    (-1 <= fcell_index_open n (fdiv (fsub x lo) Sd) - fcell_index_open n (fdiv (fsub y lo) Sd) <= 1)%Z.
  Proof. intros Gx Gy H. pose proof s_pos as P. unfold fcell_index_open. destruct (index_open x Gx) as (gx & -> & Ex). destruct (index_open y Gy) as (gy & -> & Ey).
    assert (C : Rabs (gx - gy) < 1).
    { assert (D : Rabs (IZR n * ((val x - val lo) / s) - IZR n * ((val y - val lo) / s)) <= 1 - pw (-31)).
      { replace (IZR n * ((val x - val lo) / s) - IZR n * ((val y - val lo) / s)) with (IZR n * (val x - val y) / s) by (field; lra).
        unfold Rdiv. rewrite Rabs_mult, (Rabs_pos_eq (/ s)) by (left; apply Rinv_0_lt_compat; lra). pose proof n_bound as N. rewrite Rabs_mult, (Rabs_pos_eq (IZR n)) by lra.
        apply (Rmult_le_reg_r s); [lra|]. rewrite Rmult_assoc, Rinv_l, Rmult_1_r by lra. lra. }
      assert (E31 : pw (-31) = 4 * pw (-33)) by (change 4 with (pw 2); rewrite pw_mul; reflexivity). assert (E36 : pw (-33) = 8 * pw (-36)) by (change 8 with (pw 3); rewrite pw_mul; reflexivity).
      pose proof (pw_pos (-36)). apply Rabs_def1; rewrite abs_le in *; lra. }
    apply trunc_close in C. lia. Qed.
End Coord.

(** ** the number of cells *)
Lemma num_cells_val b c : good_box b -> fin c -> pw (-400) <= val c <= pw 400 -> let n := fnum_cells1 c b in let s := val (fsize (fst b) (snd b)) in
  (1 <= n <= 100)%Z /\ ((2 <= n)%Z \/ val c <= s -> IZR n * val c <= s * (1 + pw (-51))).
Proof. intros Gb Fc (Lc & Uc) n s. destruct (size_ok b Gb) as (Fs & Ls & Us). fold s in Ls, Us. pose proof (pw_pos (-400)) as P4.
  assert (Ez : Beqb c (B754_zero false) = false). { rewrite Beqb_correct by auto. apply Req_bool_false. cbn. lra. } 
  assert (En : n = Z.min 100 (Z.max 1 (to_int (fdiv (fsize (fst b) (snd b)) c)))) by (unfold n, fnum_cells1; rewrite Ez; reflexivity).
  split; [lia|]. intros H. assert (Q0 : 0 < s / val c) by (apply Rdiv_lt_0_compat; lra).
  assert (Ic : / val c <= pw 400). { replace (pw 400) with (/ pw (-400)) by (symmetry; apply (bpow_opp radix2 (-400))). apply Rinv_le; lra. }
  assert (Jc : pw (-400) <= / val c). { replace (pw (-400)) with (/ pw 400) by (symmetry; apply (bpow_opp radix2 400)). apply Rinv_le; [lra|auto]. }
  assert (Bq : Rabs (s / val c) <= pw 801). { rewrite Rabs_pos_eq by lra. change 801%Z with (401 + 400)%Z. rewrite <- pw_mul. apply Rmult_le_compat; lra. }
  destruct (fdiv_val (fsize (fst b) (snd b)) c 801 ltac:(lia) Fs Fc ltac:(lra) Bq) as (Fq & Vq). fold s in Vq. set (q := fdiv (fsize (fst b) (snd b)) c) in *.
  assert (S1 : 1 <= 1 + pw (-51)) by (pose proof (pw_pos (-51)); lra).
  destruct (Z_le_gt_dec 2 n) as [Hn|Hn].
  - assert (Ht : (n <= to_int q)%Z) by lia. assert (Tq : to_int q = Ztrunc (val q)).
    { unfold to_int in *. destruct (is_finite q && (Z.abs (Btrunc q) <? 2 ^ 63)%Z)%bool eqn:Eb; [|lia].
      apply eq_IZR. rewrite (Btrunc_correct 53 1024 Hemax q). unfold round, F2R, scaled_mantissa, cexp, FIX_exp. cbn. rewrite !Rmult_1_r. reflexivity. }
    rewrite Tq in Ht. assert (Pq : 0 <= val q) by (rewrite Vq; apply rnd_pos; lra). rewrite Ztrunc_floor in Ht by auto. apply IZR_le in Ht.
    assert (Nq : IZR n <= val q) by (eapply Rle_trans; [exact Ht|apply Zfloor_lb]). pose proof (rnd_rel (s / val c)) as Er. rewrite <- Vq in Er. rewrite (Rabs_pos_eq (s / val c)) in Er by lra.
    assert (T : pw (-1075) <= pw (-53) * (s / val c)).
    { apply Rle_trans with (pw (-53) * (pw (-400) * pw (-400))); [rewrite !pw_mul; apply pw_le; lia|]. apply Rmult_le_compat_l; [left; apply pw_pos|]. apply Rmult_le_compat; lra. }
    assert (E51 : pw (-51) = 4 * pw (-53)) by (change 4 with (pw 2); rewrite pw_mul; reflexivity). pose proof (pw_pos (-53)) as P53.
    assert (Nb : IZR n <= s / val c * (1 + pw (-51))) by (rewrite E51; rewrite abs_le in Er; nra).
    replace (s * (1 + pw (-51))) with (s / val c * (1 + pw (-51)) * val c) by (field; lra). apply Rmult_le_compat_r; lra.
  - assert (E1 : n = 1%Z) by lia. rewrite E1. destruct H as [H|H]; [lia|]. rewrite Rmult_1_l. apply Rle_trans with s; [auto|]. rewrite <- (Rmult_1_r s) at 1. apply Rmult_le_compat_l; lra. Qed.

(** ** the computed distance is not much smaller than the difference in any coordinate *)
Lemma sum_lower : forall l a n, fin a -> (0 <= n)%Z -> (n + Z.of_nat (length l) <= 64)%Z -> 0 <= val a <= IZR n * pw 826 ->
  Forall (fun x => fin x /\ 0 <= val x <= pw 826) l ->
  fin (fold_left fadd l a) /\ val a <= val (fold_left fadd l a) /\ Forall (fun x => val x <= val (fold_left fadd l a)) l.
Proof. induction l as [|x l IH]; intros a n Fa Hn Hl Va H; cbn [fold_left length].
  - split; auto. split; [lra|constructor].
  - inversion H as [|? ? (Fx & Vx) H']; subst. cbn [length] in Hl. pose proof (pw_pos 826) as P.
    assert (Sm : 0 <= val a + val x <= IZR (n + 1) * pw 826) by (rewrite plus_IZR; lra).
    assert (B : Rabs (val a + val x) <= pw 833).
    { rewrite Rabs_pos_eq by lra. eapply Rle_trans; [apply Sm|]. change 833%Z with (7 + 826)%Z. rewrite <- pw_mul. apply Rmult_le_compat_r; [lra|]. change (pw 7) with (IZR 128). apply IZR_le. lia. }
    destruct (fadd_val a x 833 ltac:(lia) Fa Fx B) as (Fs & Vs).
    assert (La : val a <= val (fadd a x)) by (rewrite Vs, <- (rnd_id (val a)) at 1 by apply val_format; apply rnd_le; lra).
    assert (Lx : val x <= val (fadd a x)) by (rewrite Vs, <- (rnd_id (val x)) at 1 by apply val_format; apply rnd_le; lra).
    destruct (IH (fadd a x) (n + 1)%Z Fs) as (Ff & L1 & L2); auto; try lia.
    { rewrite Vs. split; [apply rnd_pos; lra|]. rewrite <- (rnd_id (IZR (n + 1) * pw 826)) by (apply dyadic_format; lia). apply rnd_le. lra. }
    split; auto. split; [lra|]. constructor; [lra|auto]. Qed.

Lemma square_val x : fin x -> Rabs (val x) <= pw 413 -> fin (fmul x x) /\ 0 <= val (fmul x x) <= pw 826 /\ val x * val x <= val (fmul x x) + pw (-53) * (val x * val x) + pw (-1075).
Proof. intros F B. assert (Sq : 0 <= val x * val x) by nra. assert (Bm : Rabs (val x * val x) <= pw 826).
  { rewrite Rabs_mult. change 826%Z with (413 + 413)%Z. rewrite <- pw_mul. apply Rmult_le_compat; auto using Rabs_pos. }
  destruct (fmul_val x x 826 ltac:(lia) F F Bm) as (Fm & Vm). split; auto. rewrite Vm. split.
  - split; [apply rnd_pos; lra|]. eapply Rle_trans; [apply Rle_abs|]. apply rnd_abs_le; [lia|auto].
  - pose proof (rnd_rel (val x * val x)) as E. rewrite (Rabs_pos_eq (val x * val x)) in E by lra. rewrite abs_le in E. lra. Qed.

(** an inequality between squares, with the errors as variables *)
Lemma sqrt_lower x t u e : 0 <= x -> 0 <= t -> 0 <= u <= / 4 -> 0 <= e -> x * x <= t + u * (x * x) + u * (e * e) -> x <= sqrt t * (1 + 2 * u) + e.
Proof. intros Hx Ht Hu He H. pose proof (sqrt_pos t) as R0. pose proof (sqrt_sqrt t Ht) as R2. set (r := sqrt t) in *.
  destruct (Rle_or_lt x (r * (1 + 2 * u) + e)) as [|Lt]; auto. exfalso.
  assert (S1 : (r * (1 + 2 * u) + e) * (r * (1 + 2 * u) + e) < x * x) by (assert (0 <= r * (1 + 2 * u) + e) by nra; nra).
  assert (S2 : (1 - u) * ((r * (1 + 2 * u) + e) * (r * (1 + 2 * u) + e)) < (1 - u) * (x * x)) by (apply Rmult_lt_compat_l; lra).
  assert (S3 : (1 - u) * (x * x) <= r * r + u * (e * e)) by lra.
  assert (S4 : r * r <= (1 - u) * ((r * (1 + 2 * u)) * (r * (1 + 2 * u)))). { assert (1 <= (1 - u) * ((1 + 2 * u) * (1 + 2 * u))) by nra. assert (0 <= r * r) by nra. nra. }
  assert (S5 : 0 <= (1 - u) * (r * (1 + 2 * u) * e)) by (apply Rmult_le_pos; [lra|]; apply Rmult_le_pos; nra).
  assert (S6 : u * (e * e) <= (1 - u) * (e * e)) by (apply Rmult_le_compat_r; nra). nra. Qed.

Lemma norm_lower l : (length l <= 64)%nat -> Forall (fun x => fin x /\ Rabs (val x) <= pw 413) l ->
  fin (fnorm l) /\ 0 <= val (fnorm l) /\ Forall (fun x => Rabs (val x) <= val (fnorm l) * (1 + pw (-50)) + pw (-500)) l.
Proof. intros Ll H. unfold fnorm. destruct (sum_lower (map (fun x => fmul x x) l) (B754_zero false) 0) as (Fs & Ps & Vs).
  - reflexivity. - lia. - rewrite map_length. lia. - cbn. lra.
  - apply Forall_map. eapply Forall_impl; [|exact H]. intros x (Fx & Vx). destruct (square_val x Fx Vx) as (A & B & _). auto.
  - set (sm := fold_left fadd _ _) in *. rewrite val_zero in Ps. pose proof (Bsqrt_correct 53 1024 _ _ mode_NE sm) as (V & F & _).
    assert (Fq : fin (fsqrt sm)).
    { unfold fin, fsqrt. rewrite F. destruct sm as [| | |[] m e Hm]; auto; try discriminate Fs. exfalso. cbn in Ps. unfold F2R in Ps. cbn [Fnum Fexp] in Ps.
      pose proof (bpow_gt_0 radix2 e). assert (IZR (Z.neg m) < 0) by (apply IZR_lt; reflexivity). cbn [SpecFloat.cond_Zopp Z.opp] in Ps. nra. }
    assert (Vq : val (fsqrt sm) = rnd (sqrt (val sm))) by exact V. pose proof (sqrt_pos (val sm)) as R0.
    split; auto. split; [rewrite Vq; apply rnd_pos; auto|]. apply Forall_map in Vs. rewrite Forall_forall in *. intros x Hx. specialize (Vs x Hx). destruct (H x Hx) as (Fx & Bx). destruct (square_val x Fx Bx) as (_ & _ & Sx). 
    pose proof (rnd_rel (sqrt (val sm))) as Er. rewrite <- Vq in Er. rewrite (Rabs_pos_eq (sqrt (val sm))) in Er by auto.
    assert (Lx : Rabs (val x) <= sqrt (val sm) * (1 + 2 * pw (-53)) + pw (-511)).
    { apply sqrt_lower; auto using Rabs_pos.
      - split; [left; apply pw_pos|]. change (/ 4) with (pw (-2)). apply pw_le. lia.
      - left; apply pw_pos.
      - assert (Ea : Rabs (val x) * Rabs (val x) = val x * val x) by (rewrite <- Rabs_mult; apply Rabs_pos_eq; nra). rewrite Ea. rewrite !pw_mul. change (-53 + (-511 + -511))%Z with (-1075)%Z. lra. }
    set (D := val (fsqrt sm)) in *. set (r := sqrt (val sm)) in *.
    assert (E50 : pw (-50) = 8 * pw (-53)) by (change 8 with (pw 3); rewrite pw_mul; reflexivity). assert (E500 : pw (-500) = 2048 * pw (-511)) by (change 2048 with (pw 11); rewrite pw_mul; reflexivity).
    assert (T : pw (-1075) <= pw (-511)) by (apply pw_le; lia). assert (U : pw (-53) <= / 1024) by (change (/ 1024) with (pw (-10)); apply pw_le; lia). pose proof (pw_pos (-53)) as P53. pose proof (pw_pos (-511)) as P511.
    assert (D0 : 0 <= D) by (rewrite Vq; apply rnd_pos; auto). clear - Lx Er E50 E500 T U P53 P511 D0 R0. revert Lx Er E50 E500 T U P53 P511. generalize (pw (-50)) (pw (-53)) (pw (-500)) (pw (-511)) (pw (-1075)) (Rabs (val x)). intros a u e1 e2 e3 X Lx Er -> -> T U P53 P511. rewrite abs_le in Er.
    assert (r * (1 - u) <= D + e3) by lra. assert (R1 : r <= (D + e3) * (1 + 2 * u)).
    { apply (Rmult_le_reg_r (1 - u)); [lra|]. apply Rle_trans with (D + e3); [lra|]. assert (0 <= r * (1 - u)) by (apply Rmult_le_pos; lra). assert (W : 1 <= (1 + 2 * u) * (1 - u)) by nra. rewrite Rmult_assoc. rewrite <- (Rmult_1_r (D + e3)) at 1. apply Rmult_le_compat_l; lra. }
    apply Rle_trans with ((D + e2) * (1 + 2 * u) * (1 + 2 * u) + e2); [|assert (W1 : (1 + 2 * u) * (1 + 2 * u) <= 1 + 8 * u) by nra; assert (W2 : (D + e2) * ((1 + 2 * u) * (1 + 2 * u)) <= (D + e2) * (1 + 8 * u)) by (apply Rmult_le_compat_l; lra); assert (W3 : e2 * (1 + 8 * u) <= e2 * 2) by (apply Rmult_le_compat_l; lra); lra]. eapply Rle_trans; [exact Lx|]. apply Rplus_le_compat_r. apply Rmult_le_compat_r; [lra|]. eapply Rle_trans; [exact R1|]. apply Rmult_le_compat_r; lra. Qed.

(** the difference computed in [distance], one coordinate *)
Lemma delta_val b x y : good_box b -> good_coord b x -> good_coord b y -> let s := val (fsize (fst b) (snd b)) in let d := fdelta b x y in
  fin d /\ Rabs (val d) <= pw 413 /\ exists k, Rabs (val y - val x - IZR k * s) <= Rabs (val d) + pw (-40) * s.
Proof. intros Gb (Fx & Bx) (Fy & By) s d. change (fbox_size b) with s in Bx, By. destruct (size_ok b Gb) as (Fs & Ls & Us). pose proof (s_pos b Gb) as Ps. pose proof (tiny b Gb) as T. fold s in Bx, By, Ls, Us, Ps, T.
  assert (B : Rabs (val y - val x) <= pw 11 * s) by (change 11%Z with (10 + 1)%Z; rewrite pow_succ; rewrite abs_le in *; lra).
  destruct (diff_val b Gb y x Fy Fx B) as (Fa & Ea). fold s in Ea. unfold d, fdelta. set (S := fsize (fst b) (snd b)) in *. set (a := fsub y x) in *. cbv zeta.
  destruct (np_mod_val a S Fa Fs Ps) as (Fm & Vm & Rm & _). set (m := np_mod a S) in *.
  assert (Bm : Rabs (s - val m) <= pw 401) by (fold s in Rm; rewrite abs_le; lra). destruct (fsub_val S m 401 ltac:(lia) Fs Fm Bm) as (Fn & Vn). fold s in Vn.
  pose proof (rnd_rel (s - val m)) as En. rewrite <- Vn in En. destruct (fmin_val (fsub S m) m Fn Fm) as (Fd & Vd). fold s in Rm, Vm. 
  assert (Rn : 0 <= val (fsub S m) <= pw 401) by (split; [rewrite Vn; apply rnd_pos; lra|eapply Rle_trans; [apply Rle_abs|]; rewrite Vn; apply rnd_abs_le; [lia|auto]]).
  assert (P401 : pw 401 <= pw 413) by (apply pw_le; lia).
  assert (Pd : 0 <= Rmin (val (fsub S m)) (val m) <= pw 413) by (split; [apply Rmin_glb; lra|eapply Rle_trans; [apply Rmin_l|lra]]).
  split; auto. rewrite Vd. rewrite (Rabs_pos_eq (Rmin _ _)) by lra. split; [lra|].
  (** the remainder up to a multiple of the period *)
  assert (C : exists j e, val m = val a + IZR j * s + e /\ Rabs e <= pw (-53) * s + pw (-1075)).
  { set (q := Ztrunc (val a / s)) in *. change (val S) with s in Vm. fold q in Vm. destruct (fmod_range (val a) s Ps) as (R1 & R2). cbv zeta in R1, R2. fold q in R1, R2. rewrite Vm.
    destruct (Rlt_bool_spec (val a - IZR q * s) 0) as [Hm|Hm].
    - exists (1 - q)%Z, (rnd (val a - IZR q * s + s) - (val a - IZR q * s + s)). split; [rewrite minus_IZR; ring|]. eapply Rle_trans; [apply rnd_rel|]. apply Rplus_le_compat_r. apply Rmult_le_compat_l; [left; apply pw_pos|].
      assert (- s < val a - IZR q * s). { destruct (Rle_or_lt 0 (val a)); [specialize (R1 ltac:(lra)); lra|specialize (R2 ltac:(lra)); lra]. } rewrite Rabs_pos_eq by lra. lra.
    - exists (- q)%Z, 0. split; [rewrite opp_IZR; ring|]. rewrite Rabs_R0. pose proof (pw_pos (-53)). pose proof (pw_pos (-1075)). nra. }
  destruct C as (j & e & Em & Be). rewrite (Rabs_pos_eq (s - val m)) in En by lra.
  assert (E40 : pw (-40) = 2 * pw (-41)) by (change (-40)%Z with (-41 + 1)%Z; apply pow_succ). assert (E53 : pw (-53) <= / 8 * pw (-41)).
  { change (/ 8) with (pw (-3)). rewrite pw_mul. apply pw_le. lia. } assert (E60 : pw (-60) <= / 8 * pw (-41)) by (change (/ 8) with (pw (-3)); rewrite pw_mul; apply pw_le; lia).
  assert (X53 : pw (-53) * s <= / 8 * pw (-41) * s) by (apply Rmult_le_compat_r; lra). assert (X60 : pw (-60) * s <= / 8 * pw (-41) * s) by (apply Rmult_le_compat_r; lra).
  assert (Y53 : pw (-53) * (s - val m) <= pw (-53) * s) by (apply Rmult_le_compat_l; [left; apply pw_pos|lra]). rewrite E40. pose proof (pw_pos (-41)) as P41. assert (Z41 : 0 < pw (-41) * s) by (apply Rmult_lt_0_compat; lra).
  unfold Rmin. destruct (Rle_dec (val (fsub S m)) (val m)) as [Hc|Hc].
  - exists (1 - j)%Z. rewrite minus_IZR. rewrite abs_le in *. lra.
  - exists (- j)%Z. rewrite opp_IZR. rewrite abs_le in *. lra. Qed.
