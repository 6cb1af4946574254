(** C54: the cell index in double precision. *)
From Coq Require Import ZArith Reals Psatz.
From Flocq Require Import Core BinarySingleNaN.
From Verif Require Import Float FloatFacts.
From Coq Require Import Lra.
Open Scope R_scope.

(** *** For every double [f] with [0 <= f < 1] and every number of cells (the container uses
    at most 100) the cell index is in range. *)
Theorem C54_index : forall (n : Z) (f : double), (1 <= n <= 2 ^ 53)%Z -> is_finite f = true -> 0 <= B2R f < 1 -> (0 <= fcell_index n f < n)%Z.
Proof. exact index_range. Qed.
Print Assumptions C54_index.

(** *** Results are stored under the fraction of their normalised position.  For every periodic
    box and every position (below 2^1000 in absolute value) the fraction is in [0, 1), so
    storing cannot fail; in particular rounding up to 1 does not happen. *)
Theorem C54_stored : forall (lo hi p : double) (n : Z), is_finite lo = true -> is_finite hi = true -> is_finite p = true ->
  Rabs (B2R lo) <= bpow radix2 1000 -> Rabs (B2R hi) <= bpow radix2 1000 -> Rabs (B2R p) <= bpow radix2 1000 -> B2R lo < B2R hi -> (1 <= n <= 2 ^ 53)%Z ->
  let f := fget_frac lo hi (fnormalize lo hi p) in is_finite f = true /\ 0 <= B2R f < 1 /\ (0 <= fcell_index n f < n)%Z.
Proof. intros lo hi p n Fl Fh Fp Bl Bh Bp L Hn f. destruct (stored_frac lo hi Fl Fh L Bl Bh p Fp Bp) as (F & V). split; auto. split; auto. apply index_range; auto. Qed.
Print Assumptions C54_stored.

(** the normalised position itself is not below the lower limit *)
Theorem C54_normalized : forall (lo hi p : double), is_finite lo = true -> is_finite hi = true -> is_finite p = true ->
  Rabs (B2R lo) <= bpow radix2 1000 -> Rabs (B2R hi) <= bpow radix2 1000 -> Rabs (B2R p) <= bpow radix2 1000 -> B2R lo < B2R hi ->
  is_finite (fnormalize lo hi p) = true /\ B2R lo <= B2R (fnormalize lo hi p).
Proof. intros lo hi p Fl Fh Fp Bl Bh Bp L. destruct (normalize_val lo hi Fl Fh L Bl Bh p Fp Bp) as (F & V & _). auto. Qed.
Print Assumptions C54_normalized.

(** *** Lookups use positions that are not normalised: the fraction is in [0, 1] and the index
    at most [n]; the neighbouring cells are taken modulo [n], so lookups do not fail either. *)
Theorem C54_lookup : forall (lo hi p : double) (n : Z), is_finite (fdiv (fsub p lo) (fsize lo hi)) = true -> (1 <= n <= 2 ^ 52)%Z ->
  let f := fget_frac lo hi p in is_finite f = true /\ 0 <= B2R f <= 1 /\ (0 <= fcell_index n f <= n)%Z /\ forall k, (0 <= (fcell_index n f + k) mod n < n)%Z.
Proof. intros lo hi p n Fq Hn f. destruct fone_val as (F1 & V1). destruct (np_mod_val _ fone Fq F1 ltac:(lra)) as (Fm & _ & R1 & _). fold (fget_frac lo hi p) in Fm, R1. fold f in Fm, R1. rewrite V1 in R1.
  split; auto. split; auto. split; [|intros k; apply Z.mod_pos_bound; lia].
  destruct (Rlt_le_dec (B2R f) 1) as [Lt|Ge]; [pose proof (index_range n f ltac:(lia) Fm ltac:(lra)); lia|]. assert (E : B2R f = 1) by lra.
  unfold fcell_index. destruct (of_int_val n ltac:(lia)) as (Fn & Vn). assert (Nn : 1 <= IZR n <= bpow radix2 52) by (split; [apply (IZR_le 1); lia|change (bpow radix2 52) with (IZR (2 ^ 52)); apply IZR_le; lia]).
  destruct (fmul_val f (of_int n) 52 ltac:(lia) Fm Fn) as (Fp & Vp); [rewrite E, Vn, Rmult_1_l, Rabs_pos_eq by lra; lra|].
  rewrite E, Vn, Rmult_1_l, rnd_id in Vp by (apply int_format; lia). rewrite to_int_val; auto; [rewrite Vp, Ztrunc_IZR; lia|]. rewrite Vp, Rabs_pos_eq by lra. assert (bpow radix2 52 < bpow radix2 63) by (apply bpow_lt; lia). lra. Qed.
Print Assumptions C54_lookup.

(** a box that is not periodic: in range for every double, even for infinity and NaN *)
Theorem C54_not_periodic : forall (n : Z) (f : double), (1 <= n)%Z -> (0 <= fcell_index_open n f < n + 2)%Z.
Proof. intros n f Hn. unfold fcell_index_open. lia. Qed.
Print Assumptions C54_not_periodic.

(** *** Finding: storing under the fraction of a position that is not normalised (what
    [set_refined] does) can fail: for a position just below the lower limit the fraction is
    rounded up to 1 and the index is one past the last cell, for every number of cells. *)
Definition below_zero : double := of_dyadic (-1) (-60).
Lemma below_frac : fget_frac (B754_zero false) fone below_zero = fone.
Proof. apply B2SF_inj. vm_compute. reflexivity. Qed.
Theorem C54_not_normalized_refuted : B2R below_zero = - bpow radix2 (-60) /\ B2R (fget_frac (B754_zero false) fone below_zero) = 1 /\
  forall n, (1 <= n <= 2 ^ 52)%Z -> fcell_index n (fget_frac (B754_zero false) fone below_zero) = n.
Proof. destruct (of_dyadic_val (-1) (-60) ltac:(lia) ltac:(lia)) as (_ & V). split; [unfold below_zero; rewrite V; ring|]. rewrite below_frac. destruct fone_val as (F1 & V1). split; [exact V1|].
  intros n Hn. unfold fcell_index. destruct (of_int_val n ltac:(lia)) as (Fn & Vn). assert (Nn : 1 <= IZR n <= bpow radix2 52) by (split; [apply (IZR_le 1); lia|change (bpow radix2 52) with (IZR (2 ^ 52)); apply IZR_le; lia]).
  destruct (fmul_val fone (of_int n) 52 ltac:(lia) F1 Fn) as (Fp & Vp); [rewrite V1, Vn, Rmult_1_l, Rabs_pos_eq by lra; lra|].
  rewrite V1, Vn, Rmult_1_l, rnd_id in Vp by (apply int_format; lia). rewrite to_int_val; auto; [rewrite Vp, Ztrunc_IZR; lia|]. rewrite Vp, Rabs_pos_eq by lra. assert (bpow radix2 52 < bpow radix2 63) by (apply bpow_lt; lia). lra. Qed.
Print Assumptions C54_not_normalized_refuted.
(** *** Finding: in floating point the normalised position can be the upper limit, and
    normalising again changes it (in exact arithmetic neither happens, C01). *)
Theorem C54_upper_limit_refuted : fnormalize (B754_zero false) fone below_zero = fone /\ B2R (fnormalize (B754_zero false) fone fone) = 0.
Proof. split; [apply B2SF_inj; vm_compute; reflexivity|]. assert (E : fnormalize (B754_zero false) fone fone = B754_zero false) by (apply B2SF_inj; vm_compute; reflexivity). rewrite E. reflexivity. Qed.
Print Assumptions C54_upper_limit_refuted.

(** hypotheses met: the largest double below 1, and 100 cells; the box [-1/2, 1/2] and the
    position of the finding *)
Definition last_below_one : double := of_dyadic (2 ^ 53 - 1) (-53).
Theorem C54_hypotheses_met : is_finite last_below_one = true /\ 0 <= B2R last_below_one < 1 /\ fcell_index 100 last_below_one = 99%Z /\
  B2R (of_dyadic (-1) (-1)) = - (1 / 2) /\ B2R (of_dyadic 1 (-1)) = 1 / 2 /\
  fcell_index 100 (fget_frac (of_dyadic (-1) (-1)) (of_dyadic 1 (-1)) (fnormalize (of_dyadic (-1) (-1)) (of_dyadic 1 (-1)) below_zero)) = 50%Z /\
  fcell_index 3 (fget_frac (of_dyadic (-1) (-1)) (of_dyadic 1 (-1)) (of_dyadic (-3) (-2))) = 2%Z.
Proof. destruct (of_dyadic_val (2 ^ 53 - 1) (-53) ltac:(lia) ltac:(lia)) as (F & V). split; [exact F|]. split.
  { unfold last_below_one. rewrite V. change (IZR (2 ^ 53 - 1)) with 9007199254740991. change (bpow radix2 (-53)) with (/ 9007199254740992). lra. }
  split; [vm_compute; reflexivity|].
  destruct (of_dyadic_val (-1) (-1) ltac:(lia) ltac:(lia)) as (_ & V1). destruct (of_dyadic_val 1 (-1) ltac:(lia) ltac:(lia)) as (_ & V2).
  split; [rewrite V1; change (bpow radix2 (-1)) with (/ 2); lra|]. split; [rewrite V2; change (bpow radix2 (-1)) with (/ 2); lra|]. split; vm_compute; reflexivity. Qed.
Print Assumptions C54_hypotheses_met.

(** *** The rounded majority test of the dimension (C44) is the exact one. *)
Theorem C54_two_thirds : forall count total, (0 <= count <= total)%Z -> (total <= 2 ^ 50)%Z -> ftwo_thirds count total = (2 * total <=? 3 * count)%Z.
Proof. intros count total Hc Ht. unfold ftwo_thirds.
  assert (Ec : fdiv (of_int 2) (of_int 3) = of_dyadic 6004799503160661 (-53)) by (apply B2SF_inj; vm_compute; reflexivity). rewrite Ec.
  destruct (of_dyadic_val 6004799503160661 (-53) ltac:(lia) ltac:(lia)) as (Fc & Vc). change (bpow radix2 (-53)) with (/ 9007199254740992) in Vc.
  destruct (of_int_val total ltac:(lia)) as (Fn & Vn). destruct (of_int_val count ltac:(lia)) as (Fk & Vk).
  assert (Ht' : 0 <= IZR total <= bpow radix2 50) by (split; [apply (IZR_le 0); lia|change (bpow radix2 50) with (IZR (2 ^ 50)); apply IZR_le; lia]). change (bpow radix2 50) with 1125899906842624 in Ht'.
  destruct (fmul_val (of_dyadic 6004799503160661 (-53)) (of_int total) 50 ltac:(lia) Fc Fn) as (Fp & Vp).
  { rewrite Vc, Vn, Rabs_pos_eq by nra. change (bpow radix2 50) with 1125899906842624. lra. }
  rewrite Bleb_correct by auto. rewrite Vp, Vc, Vn, Vk. destruct (Z.leb_spec (2 * total) (3 * count)) as [H|H].
  - apply Rle_bool_true. rewrite <- (rnd_id (IZR count)) by (apply int_format; lia). apply rnd_le. apply IZR_le in H. rewrite !mult_IZR in H. lra.
  - apply Rle_bool_false. assert (H' : (3 * count + 1 <= 2 * total)%Z) by lia. apply IZR_le in H'. rewrite plus_IZR, !mult_IZR in H'.
    apply Rlt_le_trans with (IZR (4 * count + 1) * bpow radix2 (-2)).
    + rewrite plus_IZR, mult_IZR. change (bpow radix2 (-2)) with (/ 4). lra.
    + rewrite <- (rnd_id (IZR (4 * count + 1) * bpow radix2 (-2))) by (apply dyadic_format; lia). apply rnd_le. rewrite plus_IZR, mult_IZR. change (bpow radix2 (-2)) with (/ 4). lra. Qed.
Print Assumptions C54_two_thirds.
(** hypotheses met: exactly two thirds, for the largest number of positions covered *)
Theorem C54_two_thirds_met : ftwo_thirds 750599937895082 1125899906842623 = true /\ ftwo_thirds 750599937895081 1125899906842623 = false.
Proof. split; vm_compute; reflexivity. Qed.
Print Assumptions C54_two_thirds_met.
