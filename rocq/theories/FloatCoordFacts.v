(** The coordinate system in double precision, coordinate by coordinate (for C78). *)
From Coq Require Import ZArith Reals Psatz List.
From Flocq Require Import Core BinarySingleNaN.
From Verif Require Import Base BaseFacts CoordSys Float FloatFacts FloatVector FloatVectorFacts FloatMin FloatCell SpecFloatCell FloatCellNum FloatCoord SpecFloatCoord.
From Coq Require Import Lra.
Import ListNotations.
Open Scope list_scope.
Open Scope R_scope.
Notation fin x := (is_finite (x : double) = true).
Notation val x := (B2R (x : double)).
Notation pw := (bpow radix2).

Lemma abs_iff x y : Rabs x <= y <-> - y <= x <= y.
Proof. split; [apply Rabs_le_inv|apply Rabs_le]. Qed.
(** numpy's remainder differs by a multiple, up to one rounding *)
Lemma mod_image a S : fin a -> fin S -> 0 < val S -> fin (np_mod a S) /\ 0 <= val (np_mod a S) <= val S /\
  exists j, Rabs (val (np_mod a S) - val a - IZR j * val S) <= pw (-53) * val S + pw (-1075).
Proof. intros Fa Fs Ps. destruct (np_mod_val a S Fa Fs Ps) as (F & V & Rg & _). split; auto. split; auto. set (q := Ztrunc (val a / val S)) in *. pose proof (pw_pos (-53)) as P1. pose proof (pw_pos (-1075)) as P2.
  destruct (fmod_range (val a) (val S) Ps) as (R1 & R2). cbv zeta in R1, R2. fold q in R1, R2.
  destruct (Rlt_bool_spec (val a - IZR q * val S) 0) as [N|N]; rewrite V.
  - exists (1 - q)%Z. rewrite minus_IZR. set (m := val a - IZR q * val S) in *. assert (Rm : - val S < m) by (destruct (Rle_or_lt 0 (val a)); [specialize (R1 ltac:(lra)); lra|specialize (R2 ltac:(lra)); lra]).
    replace (rnd (m + val S) - val a - (1 - IZR q) * val S) with (rnd (m + val S) - (m + val S)) by (unfold m; ring). eapply Rle_trans; [apply rnd_rel|]. apply Rplus_le_compat_r. apply Rmult_le_compat_l; [lra|]. rewrite Rabs_pos_eq; lra.
  - exists (- q)%Z. rewrite opp_IZR. replace (val a - IZR q * val S - val a - - IZR q * val S) with 0 by ring. rewrite Rabs_R0. nra. Qed.

Section Coord.
  Variable b : fbox.
  Hypothesis Gb : good_box b.
  Notation lo := (fst b).
  Notation hi := (snd b).
  Notation Sd := (fsize (fst b) (snd b)).
  Notation s := (val (fsize (fst b) (snd b))).

  Lemma width_size : 0 < width b /\ s <= 2 * width b /\ width b <= magnitude b /\ Rabs (s - width b) <= pw (-53) * width b + pw (-1075).
  Proof. destruct Gb as (Fl & Fh & L & Bl & Bh & Ls). assert (X : pw 400 <= pw 1000) by (apply pw_le; lia). destruct (size_val lo hi Fl Fh L ltac:(lra) ltac:(lra)) as (F & V & P & _).
    unfold width, magnitude. pose proof (rnd_rel (val hi - val lo)) as R. rewrite <- V in R. rewrite (Rabs_pos_eq (val hi - val lo)) in R by lra. pose proof (rnd_half_le (val hi - val lo)) as H. rewrite <- V in H. specialize (H P).
    apply abs_iff in H. pose proof (Rle_abs (val hi)). pose proof (Rle_abs (- val lo)) as A. rewrite Rabs_Ropp in A. repeat split; try lra. Qed.
  (** the error of adding the lower limit *)
  Lemma add_lower d K : fin d -> Rabs (val d) <= K * s -> 1 <= K <= 8192 -> fin (fadd d lo) /\ Rabs (val (fadd d lo) - (val d + val lo)) <= pw (-53) * (K * s + magnitude b) + pw (-1075).
  Proof. intros Fd Bd HK. destruct (size_ok b Gb) as (Fs & Ls & Us). destruct Gb as (Fl & Fh & L & Bl & Bh & _). pose proof (s_pos b Gb) as Ps.
    assert (B : Rabs (val d + val lo) <= K * s + magnitude b). { eapply Rle_trans; [apply Rabs_triang|]. unfold magnitude. pose proof (Rabs_pos (val hi)). lra. }
    assert (B2 : Rabs (val d + val lo) <= pw 415). { eapply Rle_trans; [apply Rabs_triang|]. apply Rle_trans with (8192 * pw 401 + pw 400); [|change 8192 with (pw 13); rewrite pw_mul; change (13 + 401)%Z with 414%Z; change 415%Z with (414 + 1)%Z; rewrite pow_succ; pose proof (pw_le 400 414 ltac:(lia)); lra].
      apply Rplus_le_compat; [|exact Bl]. eapply Rle_trans; [exact Bd|]. apply Rmult_le_compat; lra. }
    destruct (fadd_val d lo 415 ltac:(lia) Fd Fl B2) as (F & V). split; auto. rewrite V. eapply Rle_trans; [apply rnd_rel|]. apply Rplus_le_compat_r. apply Rmult_le_compat_l; [left; apply pw_pos|exact B]. Qed.
  (** a multiple of the computed size is one of the exact size *)
  Lemma exact_size z x j e : Rabs (IZR j) <= 4096 -> Rabs (z - x - IZR j * s) <= e -> Rabs (z - x - IZR j * width b) <= e + pw (-41) * width b + pw (-48) * s.
  Proof. intros Bj He. destruct width_size as (W0 & _ & _ & Er). pose proof (tiny b Gb) as T. replace (z - x - IZR j * width b) with ((z - x - IZR j * s) + IZR j * (s - width b)) by ring. eapply Rle_trans; [apply Rabs_triang|]. rewrite Rabs_mult.
    assert (Rabs (IZR j) * Rabs (s - width b) <= 4096 * (pw (-53) * width b + pw (-60) * s)) by (apply Rmult_le_compat; try apply Rabs_pos; lra). change 4096 with (pw 12) in H. rewrite Rmult_plus_distr_l, <- !Rmult_assoc, !pw_mul in H.
    change (12 + -53)%Z with (-41)%Z in H. change (12 + -60)%Z with (-48)%Z in H. lra. Qed.

  Theorem normalize_coord x : good_coord b x -> inside b (fnormalize lo hi x) /\ image_of b x (fnormalize lo hi x).
  Proof. intros (Fx & Bx). change (fbox_size b) with s in Bx. destruct (size_ok b Gb) as (Fs & Ls & Us). pose proof (s_pos b Gb) as Ps. pose proof (tiny b Gb) as T. destruct width_size as (W0 & W2 & WM & Er). destruct Gb as (Fl & Fh & L & Bl & Bh & _).
    assert (B : Rabs (val x - val lo) <= pw 11 * s) by (change 11%Z with (10 + 1)%Z; rewrite pow_succ; pose proof (pw_pos 10); nra).
    destruct (diff_val b Gb x lo Fx Fl B) as (Fd & Ed). destruct (mod_image (fsub x lo) Sd Fd Fs Ps) as (Fm & Rm & j & Ej). set (d := fsub x lo) in *. set (m := np_mod d Sd) in *.
    destruct (add_lower m 1 Fm) as (Fz & Ez); [rewrite Rabs_pos_eq; lra|lra|]. unfold fnormalize. fold d m. set (z := fadd m lo) in *.
    change (pw (-53)) with (/ 9007199254740992) in *. change (pw (-60)) with (/ 1152921504606846976) in *. change (pw (-41)) with (/ 2199023255552) in *. change (pw 11) with 2048 in *. split.
    - split; [exact Fz|]. assert (X : pw 400 <= pw 1000) by (apply pw_le; lia). split.
      + destruct (fadd_val m lo 1002 ltac:(lia) Fm Fl) as (_ & Vz).
        { eapply Rle_trans; [apply Rabs_triang|]. rewrite (Rabs_pos_eq (val m)) by lra. pose proof (pw_le 401 1001 ltac:(lia)). pose proof (pw_le 400 1001 ltac:(lia)). change 1002%Z with (1001 + 1)%Z. rewrite pow_succ. lra. }
        unfold z. rewrite Vz. rewrite <- (rnd_id (val lo)) at 1 by apply val_format. apply rnd_le. lra.
      + destruct (fadd_val m lo 1002 ltac:(lia) Fm Fl) as (_ & Vz).
        { eapply Rle_trans; [apply Rabs_triang|]. rewrite (Rabs_pos_eq (val m)) by lra. pose proof (pw_le 401 1001 ltac:(lia)). pose proof (pw_le 400 1001 ltac:(lia)). change 1002%Z with (1001 + 1)%Z. rewrite pow_succ. lra. }
        unfold z. rewrite Vz. apply Rle_trans with (rnd (s + val lo)); [apply rnd_le; lra|]. pose proof (rnd_rel (s + val lo)) as R. change (pw (-53)) with (/ 9007199254740992) in R.
        assert (A : Rabs (s + val lo) <= 4 * magnitude b). { eapply Rle_trans; [apply Rabs_triang|]. rewrite (Rabs_pos_eq s) by lra. assert (Rabs (val lo) <= magnitude b) by (unfold magnitude; pose proof (Rabs_pos (val hi)); lra). lra. }
        apply abs_iff in R, Er. unfold width in *. change (pw (-50)) with (/ 1125899906842624). lra.
    - exists j. assert (Bj : Rabs (IZR j) <= 4096).
      { apply (Rmult_le_reg_r s); [exact Ps|]. rewrite <- (Rabs_pos_eq s) at 1 by lra. rewrite <- Rabs_mult. apply abs_iff in Ej, Ed, B. apply abs_iff. lra. }
      assert (K : Rabs (val z - val x - IZR j * s) <= / 1099511627776 * s + / 9007199254740992 * magnitude b).
      { apply abs_iff in Ej, Ed, Ez. apply abs_iff. lra. }
      apply (exact_size _ _ _ _ Bj) in K. eapply Rle_trans; [exact K|]. unfold coord_error. change (pw (-38)) with (/ 274877906944). change (pw (-48)) with (/ 281474976710656). change (pw (-41)) with (/ 2199023255552). change (pw (-50)) with (/ 1125899906842624). lra. Qed.

  (** the same, with the computed size *)
  Lemma normalize_computed x : good_coord b x -> exists k, Rabs (val (fnormalize lo hi x) - val x - IZR k * fbox_size b) <= coord_error b.
  Proof. intros (Fx & Bx). change (fbox_size b) with s in *. destruct (size_ok b Gb) as (Fs & Ls & Us). pose proof (s_pos b Gb) as Ps. pose proof (tiny b Gb) as T. destruct width_size as (W0 & W2 & WM & Er). destruct Gb as (Fl & Fh & L & Bl & Bh & _).
    assert (B : Rabs (val x - val lo) <= pw 11 * s) by (change 11%Z with (10 + 1)%Z; rewrite pow_succ; pose proof (pw_pos 10); nra).
    destruct (diff_val b Gb x lo Fx Fl B) as (Fd & Ed). destruct (mod_image (fsub x lo) Sd Fd Fs Ps) as (Fm & Rm & j & Ej). set (d := fsub x lo) in *. set (m := np_mod d Sd) in *.
    destruct (add_lower m 1 Fm) as (Fz & Ez); [rewrite Rabs_pos_eq; lra|lra|]. unfold fnormalize. fold d m. set (z := fadd m lo) in *. exists j.
    change (pw (-53)) with (/ 9007199254740992) in *. change (pw (-60)) with (/ 1152921504606846976) in *. change (pw (-41)) with (/ 2199023255552) in *. unfold coord_error. change (pw (-38)) with (/ 274877906944). change (pw (-50)) with (/ 1125899906842624).
    apply abs_iff in Ej, Ed, Ez. apply abs_iff. lra. Qed.

  (** a fraction [f], made a position *)
  Lemma pos_of_frac f K : fin f -> Rabs (val f) <= K -> 1 <= K <= 2048 -> fin (fget_pos1 b f) /\ Rabs (val (fget_pos1 b f) - (val f * s + val lo)) <= pw (-53) * (4 * K * s + magnitude b) + pw (-58) * s.
  Proof. intros Ff Bf HK. destruct (size_ok b Gb) as (Fs & Ls & Us). pose proof (s_pos b Gb) as Ps. pose proof (tiny b Gb) as T. unfold fget_pos1.
    assert (B0 : Rabs (val f * s) <= K * s) by (rewrite Rabs_mult, (Rabs_pos_eq s) by lra; apply Rmult_le_compat_r; lra).
    assert (B1 : Rabs (val f * s) <= pw 412). { eapply Rle_trans; [exact B0|]. change 412%Z with (11 + 401)%Z. rewrite <- pw_mul. change (pw 11) with 2048. apply Rmult_le_compat; lra. }
    destruct (fmul_val f Sd 412 ltac:(lia) Ff Fs B1) as (Fg & Vg). pose proof (rnd_rel (val f * s)) as R. rewrite <- Vg in R. set (g := fmul f Sd) in *.
    assert (R2 : Rabs (val g - val f * s) <= pw (-53) * (K * s) + pw (-1075)). { eapply Rle_trans; [exact R|]. apply Rplus_le_compat_r. apply Rmult_le_compat_l; [left; apply pw_pos|exact B0]. }
    destruct (add_lower g (2 * K) Fg) as (Fz & Ez); [|lra|].
    { change (pw (-53)) with (/ 9007199254740992) in *. change (pw (-60)) with (/ 1152921504606846976) in *. apply abs_iff in R2, B0. apply abs_iff. nra. }
    split; [exact Fz|]. change (pw (-53)) with (/ 9007199254740992) in *. change (pw (-60)) with (/ 1152921504606846976) in *. change (pw (-58)) with (/ 288230376151711744). apply abs_iff in R2, Ez. apply abs_iff. assert (0 < K * s) by nra. lra. Qed.

  Theorem frac_coord x : good_coord b x -> let f := fget_frac1 true b x in fin f /\ 0 <= val f <= 1 /\ fin (fget_pos1 b f) /\ image_of b x (fget_pos1 b f).
  Proof. intros Gx f. destruct (quot_val b Gb x Gx) as (Fy & Ey & By). unfold fget_frac1, fget_frac in f. set (y := fdiv (fsub x lo) Sd) in *. destruct fone_val as (F1 & V1). pose proof (s_pos b Gb) as Ps. destruct width_size as (W0 & W2 & WM & Er).
    destruct (mod_image y fone Fy F1 ltac:(rewrite V1; lra)) as (Ff & Rf & j & Ej). fold f in Ff, Rf, Ej. rewrite V1 in Rf, Ej. split; auto. split; [lra|].
    destruct (pos_of_frac f 1 Ff) as (Fz & Ez); [rewrite Rabs_pos_eq; lra|lra|]. split; auto. set (z := fget_pos1 b f) in *. exists j.
    assert (T : pw (-1075) <= pw (-60)) by (apply pw_le; lia). change (pw (-60)) with (/ 1152921504606846976) in T. change (pw (-53)) with (/ 9007199254740992) in *. change (pw (-58)) with (/ 288230376151711744) in *. change (pw (-40)) with (/ 1099511627776) in *. change (pw 11) with 2048 in *.
    assert (Bj : Rabs (IZR j) <= 4096) by (apply abs_iff in Ej, By; apply abs_iff; lra).
    set (q := (val x - val lo) / s) in *. assert (Eq : val x = q * s + val lo) by (unfold q; field; lra).
    assert (D : Rabs (val f - IZR j - q) <= / 1099511627776 + / 4503599627370496) by (apply abs_iff in Ej, Ey; apply abs_iff; lra).
    assert (D2 : Rabs ((val f - IZR j - q) * s) <= (/ 1099511627776 + / 4503599627370496) * s) by (rewrite Rabs_mult, (Rabs_pos_eq s) by lra; apply Rmult_le_compat_r; lra).
    assert (K : Rabs (val z - val x - IZR j * s) <= / 1000000000000 * s + / 9007199254740992 * magnitude b).
    { rewrite Eq. apply abs_iff in D2, Ez. apply abs_iff. lra. }
    apply (exact_size _ _ _ _ Bj) in K. eapply Rle_trans; [exact K|]. unfold coord_error. change (pw (-38)) with (/ 274877906944). change (pw (-48)) with (/ 281474976710656). change (pw (-41)) with (/ 2199023255552). change (pw (-50)) with (/ 1125899906842624). lra. Qed.

  Theorem frac_coord_open x : good_coord b x -> let f := fget_frac1 false b x in fin f /\ fin (fget_pos1 b f) /\ close_to b x (fget_pos1 b f).
  Proof. intros Gx. unfold fget_frac1. cbv zeta. destruct (quot_val b Gb x Gx) as (Fy & Ey & By). set (f := fdiv (fsub x lo) Sd) in *. clearbody f. pose proof (s_pos b Gb) as Ps. destruct width_size as (W0 & W2 & WM & Er). split; auto.
    destruct (pos_of_frac f (pw 11) Fy By ltac:(change (pw 11) with 2048; lra)) as (Fz & Ez). split; auto. set (z := fget_pos1 b f) in *. unfold close_to, coord_error.
    set (q := (val x - val lo) / s) in *. assert (Eq : val x = q * s + val lo) by (unfold q; field; lra). pose proof (tiny b Gb) as T.
    change (pw (-60)) with (/ 1152921504606846976) in T. change (pw (-53)) with (/ 9007199254740992) in *. change (pw (-58)) with (/ 288230376151711744) in *. change (pw (-40)) with (/ 1099511627776) in *. change (pw 11) with 2048 in *. change (pw (-38)) with (/ 274877906944). change (pw (-50)) with (/ 1125899906842624).
    assert (S2 : s <= (1 + / 1000000) * width b) by (apply abs_iff in Er; lra).
    assert (D2 : Rabs ((val f - q) * s) <= / 1099511627776 * s) by (rewrite Rabs_mult, (Rabs_pos_eq s) by lra; apply Rmult_le_compat_r; lra).
    rewrite Eq. apply abs_iff in D2, Ez. apply abs_iff. lra. Qed.
End Coord.
