(** Moving a stencil in double precision: its simplices stay different and in reach. *)
From Coq Require Import ZArith Reals Psatz List Permutation.
From Flocq Require Import Core BinarySingleNaN Relative.
From Verif Require Import Base BaseFacts CoordSys CellList CellListFacts Queue QueueFacts Float FloatFacts FloatVector FloatVectorFacts FloatMin FloatCell SpecFloatCell FloatCellNum FloatCellFacts PropFloatCell PropFloatCheck NelderMead FloatCheck FloatController SpecFloatSearch FloatSearchFacts.
From Coq Require Import Lra.
Import ListNotations.
Open Scope list_scope.
Open Scope R_scope.

Lemma nth_map2 {A B C} (f : A -> B -> C) : forall l m i, nth_error (map2 f l m) i = match nth_error l i, nth_error m i with Some a, Some b => Some (f a b) | _, _ => None end.
Proof. induction l as [|a l IH]; intros [|b m] [|i]; cbn; auto. destruct (nth_error l i); auto. Qed.
Lemma F2_nth {A B} (P : A -> B -> Prop) l m i a b : Forall2 P l m -> nth_error l i = Some a -> nth_error m i = Some b -> P a b.
Proof. intros F. revert i. induction F as [|x y l m H F IH]; intros [|i] Ea Eb; cbn in *; try discriminate; [congruence|eauto]. Qed.
Lemma refinable_within (per : bool) boxes p : Forall good_box boxes -> refinable per boxes p -> fwithin 9 boxes p.
Proof. intros Gb H. unfold refinable in H. destruct per; auto. revert Gb. induction H as [|b x boxes p Hx F IH]; intros Gb; constructor; inversion Gb; subst; auto; [|apply IH; auto].
  destruct Hx as (Fx & Bx). split; auto. pose proof (s_pos b ltac:(assumption)) as Ps. change (val (fsize (fst b) (snd b))) with (fbox_size b) in Ps. change (bpow radix2 9) with 512. apply Rabs_le. lra. Qed.

Section Coord.
  Variables (b : fbox) (x : double).
  Hypothesis Gb : good_box b.
  Hypothesis Fx : fin x.
  Hypothesis Bx : Rabs (B2R x - B2R (fst b)) <= pw 9 * fbox_size b.
  Let s := fbox_size b.

  Lemma moved v : fin v -> Rabs (val v) <= pw 8 * s -> fin (fadd x v) /\ Rabs (val (fadd x v) - (val x + val v)) <= pw (-53) * (Rabs (val (fst b)) + 768 * s) + pw (-1075).
  Proof. intros Fv Bv. pose proof (s_pos b Gb) as Ps. destruct (size_ok b Gb) as (_ & Ls & Us). change (val (fsize (fst b) (snd b))) with s in *.
    destruct Gb as (_ & _ & _ & Bl & _). fold s in Bx. change (pw 9) with 512 in Bx. change (pw 8) with 256 in Bv.
    assert (B1 : Rabs (val x + val v) <= Rabs (val (fst b)) + 768 * s).
    { replace (val x + val v) with ((val x - val (fst b)) + val (fst b) + val v) by ring. eapply Rle_trans; [apply Rabs_triang|]. pose proof (Rabs_triang (val x - val (fst b)) (val (fst b))). lra. }
    assert (B : Rabs (val x + val v) <= pw 412).
    { eapply Rle_trans; [exact B1|]. assert (E400 : pw 412 = 4096 * pw 400) by (change 4096 with (pw 12); rewrite pw_mul; reflexivity). assert (E401 : pw 401 = 2 * pw 400) by (change 2 with (pw 1); rewrite pw_mul; reflexivity). lra. }
    destruct (fadd_val x v 412 ltac:(lia) Fx Fv B) as (F & V). split; auto. rewrite V. eapply Rle_trans; [apply rnd_rel|]. pose proof (pw_pos (-53)). apply Rplus_le_compat_r. apply Rmult_le_compat_l; lra. Qed.
  Lemma tiny_resolution : pw (-1075) <= pw (-53) * s.
  Proof. destruct (size_ok b Gb) as (_ & Ls & _). change (val (fsize (fst b) (snd b))) with s in Ls. apply Rle_trans with (pw (-53) * pw (-400)); [rewrite pw_mul; apply pw_le; lia|]. apply Rmult_le_compat_l; [left; apply pw_pos|auto]. Qed.
  Lemma moved_apart v w : fin v -> fin w -> Rabs (val v) <= pw 8 * s -> Rabs (val w) <= pw 8 * s -> val (fadd x v) = val (fadd x w) -> Rabs (val v - val w) <= resolution b.
  Proof. intros Fv Fw Bv Bw E. destruct (moved v Fv Bv) as (_ & A). destruct (moved w Fw Bw) as (_ & B). rewrite E in A. pose proof tiny_resolution as T. unfold resolution. fold s. change (pw 10) with 1024.
    pose proof (s_pos b Gb) as Ps. change (val (fsize (fst b) (snd b))) with s in Ps. pose proof (Rabs_pos (val (fst b))) as Pl. assert (E51 : pw (-51) = 4 * pw (-53)) by (change 4 with (pw 2); rewrite pw_mul; reflexivity). rewrite E51.
    pose proof (pw_pos (-53)) as P53. pose proof (Rmult_le_pos _ _ (Rlt_le _ _ P53) Pl) as N1. pose proof (Rmult_lt_0_compat _ _ P53 Ps) as N2. rewrite Rmult_plus_distr_l in *. rewrite abs_le in *. lra. Qed.
  Lemma moved_good v : resolution b <= s -> fin v -> Rabs (val v) <= pw 8 * s -> good_coord b (fadd x v).
  Proof. intros Hr Fv Bv. destruct (moved v Fv Bv) as (F & A). split; auto. pose proof tiny_resolution as T. unfold resolution in Hr. fold s in Hr, Bx. fold s. change (pw 10) with 1024 in *. change (pw 9) with 512 in Bx. change (pw 8) with 256 in Bv.
    pose proof (s_pos b Gb) as Ps. change (val (fsize (fst b) (snd b))) with s in Ps. pose proof (Rabs_pos (val (fst b))) as Pl. assert (E51 : pw (-51) = 4 * pw (-53)) by (change 4 with (pw 2); rewrite pw_mul; reflexivity). rewrite E51 in Hr.
    pose proof (pw_pos (-53)) as P53. pose proof (Rmult_le_pos _ _ (Rlt_le _ _ P53) Pl) as N1. pose proof (Rmult_lt_0_compat _ _ P53 Ps) as N2. rewrite Rmult_plus_distr_l in *.
    rewrite abs_le in *. lra. Qed.
End Coord.

Lemma drop_sign_inj x y : drop_sign x = drop_sign y -> B2R x = B2R y.
Proof. intros E. destruct (drop_sign_val x) as (A & _). destruct (drop_sign_val y) as (B & _). congruence. Qed.
Lemma norm_simplex_members s t : norm_fsimplex s = norm_fsimplex t -> forall v, In v s -> exists w, In w t /\ map drop_sign v = map drop_sign w.
Proof. intros E v Hv. unfold norm_fsimplex in E. pose proof (sort_perm (lex_leb flt) (map (map drop_sign) s)) as P1. pose proof (sort_perm (lex_leb flt) (map (map drop_sign) t)) as P2. rewrite E in P1.
  assert (H : In (map drop_sign v) (map (map drop_sign) t)).
  { eapply Permutation_in; [exact P2|]. eapply Permutation_in; [symmetry; exact P1|]. apply in_map. auto. }
  apply in_map_iff in H as (w & Ew & Hw). exists w. auto. Qed.

Theorem stencil_moved per boxes st p : Forall good_box boxes -> resolved_stencil boxes st -> refinable per boxes p ->
  NoDup (map norm_fsimplex (ftranslate p st)) /\ Forall (Forall (good_position boxes)) (ftranslate p st).
Proof. intros Gb (Hr & Hv & Ha) Hp. pose proof (refinable_within per boxes p Gb Hp) as W.
  assert (V : forall i s v, nth_error st i = Some s -> In v s -> Forall2 (fun b x => is_finite x = true /\ (Rabs (B2R x) <= bpow radix2 8 * fbox_size b)%R) boxes v).
  { intros i s v E Iv. apply nth_error_In in E. rewrite Forall_forall in Hv. specialize (Hv s E). rewrite Forall_forall in Hv. auto. }
  assert (AP : forall i j s t v w, nth_error st i = Some s -> nth_error st j = Some t -> In v s -> In w t -> apart boxes v w -> map drop_sign (map2 fadd p v) = map drop_sign (map2 fadd p w) -> False).
  { intros i j s t v w Ei Ej Iv Iw (k & b & x & y & Eb & Ex & Ey & L) E. pose proof (V i s v Ei Iv) as Vv. pose proof (V j t w Ej Iw) as Vw.
    assert (Hk : exists c, nth_error p k = Some c). { pose proof (F2_length _ _ _ W). destruct (nth_error p k) eqn:Q; eauto. apply nth_error_None in Q. assert (nth_error boxes k = None) by (apply nth_error_None; lia). congruence. }
    destruct Hk as (c & Ec). apply (f_equal (fun l => nth_error l k)) in E. rewrite !nth_error_map, !nth_map2, Ec, Ex, Ey in E. cbn in E. injection E as E. apply drop_sign_inj in E.
    destruct (F2_nth _ _ _ k b c W Eb Ec) as (Fc & Bc). destruct (F2_nth _ _ _ k b x Vv Eb Ex) as (Fx & Bx). destruct (F2_nth _ _ _ k b y Vw Eb Ey) as (Fy & By).
    rewrite Forall_forall in Gb. pose proof (moved_apart b c (Gb b (nth_error_In _ _ Eb)) Fc Bc x y Fx Fy Bx By E). lra. }
  split.
  - apply NoDup_nth_error. intros i j Hi E. rewrite map_length in Hi. unfold ftranslate in *. rewrite map_length in Hi. rewrite !nth_error_map in E.
    destruct (nth_error st i) as [s|] eqn:Ei; [|apply nth_error_None in Ei; lia]. destruct (nth_error st j) as [t|] eqn:Ej; [|discriminate]. cbn in E. injection E as E.
    destruct (Nat.eq_dec i j) as [|N]; auto. exfalso. destruct (Ha i j s t N Ei Ej) as (v & [(Iv & H)|(Iv & H)]).
    + destruct (norm_simplex_members _ _ E (map2 fadd p v)) as (w' & Iw & Ew); [apply in_map; auto|]. apply in_map_iff in Iw as (w & <- & Iw). eapply (AP i j); eauto.
    + destruct (norm_simplex_members _ _ (eq_sym E) (map2 fadd p v)) as (w' & Iw & Ew); [apply in_map; auto|]. apply in_map_iff in Iw as (w & <- & Iw). eapply (AP j i); eauto.
  - unfold ftranslate. apply Forall_forall. intros s' Hs. apply in_map_iff in Hs as (s & <- & Hs). apply Forall_forall. intros v' Iv. apply in_map_iff in Iv as (v & <- & Iv).
    apply In_nth_error in Hs as (i & Ei). pose proof (V i s v Ei Iv) as Vv. clear -Gb Hr W Vv. revert v Vv. induction W as [|b c boxes p (Fc & Bc) W IH]; intros v Vv; inversion Vv as [|? x ? v' (Fx & Bx) Vv']; subst; cbn [map2]; constructor.
    + apply moved_good; auto; [inversion Gb; auto|inversion Hr; auto].
    + inversion Gb; inversion Hr; subst. apply IH; auto. Qed.
