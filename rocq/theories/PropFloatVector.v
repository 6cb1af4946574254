(** C59: connecting vectors in double precision. *)
From Coq Require Import ZArith Reals Psatz List.
From Flocq Require Import Core BinarySingleNaN.
From Verif Require Import Base Float FloatFacts FloatVector FloatVectorFacts.
From Coq Require Import Lra.
Import ListNotations.
Open Scope list_scope.
Open Scope R_scope.

(** A double of moderate size: finite, at most 2^20 (about a million) in absolute value. *)
Definition moderate_number (x : double) : Prop := is_finite x = true /\ Rabs (B2R x) <= bpow radix2 20.

Lemma moderate_all boxes p q : length p = length boxes -> length q = length boxes ->
  Forall (fun b => moderate_number (fst b) /\ moderate_number (snd b) /\ B2R (fst b) < B2R (snd b)) boxes -> Forall moderate_number p -> Forall moderate_number q ->
  Forall (fun x => moderate (fst (fst x)) (snd (fst x)) (snd x)) (combine (combine boxes p) q).
Proof. revert p q. induction boxes as [|b boxes IH]; intros [|x p] [|y q] Lp Lq Hb Hp Hq; cbn in *; try discriminate; [constructor|].
  inversion Hb as [|? ? B1 B2]; inversion Hp as [|? ? P1 P2]; inversion Hq as [|? ? Q1 Q2]; subst. constructor; [|apply IH; auto]. unfold moderate_number in *. unfold moderate. cbn [fst snd]. tauto. Qed.

(** *** In double precision the assertion in [connecting_vector] never fails, for boxes and
    positions of moderate size in up to 64 dimensions; hence neither do [average] and the
    evaluation of nodal points, which call it. *)
Theorem C59_no_assertion_error : forall boxes p1 p2, length p1 = length boxes -> length p2 = length boxes -> (length boxes <= 64)%nat ->
  Forall (fun b => moderate_number (fst b) /\ moderate_number (snd b) /\ B2R (fst b) < B2R (snd b)) boxes -> Forall moderate_number p1 -> Forall moderate_number p2 ->
  exists v, fconnecting_vector boxes p1 p2 = Ok v.
Proof. intros boxes p1 p2 L1 L2 Lb Hb H1 H2. eexists. apply assertion_holds; auto. apply moderate_all; auto. Qed.
Print Assumptions C59_no_assertion_error.

(** *** What is returned: in every coordinate the difference of the positions up to a multiple
    of the size of the box and an error of at most 3/2^33, and at most half the size (plus
    2^-34) in absolute value. *)
Theorem C59_vector : forall boxes p1 p2 v i, length p1 = length boxes -> length p2 = length boxes -> (length boxes <= 64)%nat ->
  Forall (fun b => moderate_number (fst b) /\ moderate_number (snd b) /\ B2R (fst b) < B2R (snd b)) boxes -> Forall moderate_number p1 -> Forall moderate_number p2 ->
  fconnecting_vector boxes p1 p2 = Ok v -> (i < length boxes)%nat ->
  forall b x y, nth_error boxes i = Some b -> nth_error p1 i = Some x -> nth_error p2 i = Some y ->
  exists r j err, nth_error v i = Some r /\ is_finite r = true /\
    B2R r = B2R y - B2R x + IZR j * B2R (fsub (snd b) (fst b)) + err /\ Rabs err <= 3 * bpow radix2 (-33) /\
    Rabs (B2R r) <= B2R (fsub (snd b) (fst b)) / 2 + bpow radix2 (-34).
Proof. intros boxes p1 p2 v i L1 L2 Lb Hb H1 H2 E Hi b x y Eb Ex Ey. rewrite assertion_holds in E; auto; [|apply moderate_all; auto]. injection E as <-.
  pose proof (moderate_all boxes p1 p2 L1 L2 Hb H1 H2) as M. clear Lb Hb H1 H2. revert p1 p2 i L1 L2 Hi Eb Ex Ey M. induction boxes as [|b' boxes IH]; intros [|x' p1] [|y' p2] i L1 L2 Hi Eb Ex Ey M; cbn in L1, L2, Hi; try lia.
  cbn in M. inversion M as [|? ? M1 M2]; subst. destruct i as [|i].
  - cbn in Eb, Ex, Ey. injection Eb as ->. injection Ex as ->. injection Ey as ->. destruct M1 as ((A1 & A2 & A3 & A4) & A5 & A6 & A7 & A8 & A9). destruct b as [lo hi]. cbn [fst snd] in *.
    destruct (connect_val lo hi x y A1 A2 A3 A4 A5 A6 A7 A8 A9) as (F & _ & B & j & e & V & Be). exists (fconnect (lo, hi) x y), j, e. split; [reflexivity|]. auto.
  - apply (IH p1 p2 i); auto; lia. Qed.
Print Assumptions C59_vector.

(** *** Finding: the tolerance 1e-8 is absolute.  In a box of size 65195726.57833476 the
    assertion fails for two positions inside the box. *)
Definition big_hi : double := of_dyadic 4375211148326653 (-26).
Definition big_p1 : double := of_dyadic 6775620361267043 (-27).
Definition big_p2 : double := of_dyadic 3087728802498217 (-28).
Theorem C59_large_box_refuted : fconnecting_vector [(B754_zero false, big_hi)] [big_p1] [big_p2] = Err AssertionError /\
  0 < B2R big_p2 < B2R big_p1 /\ B2R big_p1 < B2R big_hi < bpow radix2 26.
Proof. split; [vm_compute; reflexivity|]. unfold big_hi, big_p1, big_p2.
  destruct (of_dyadic_val 4375211148326653 (-26) ltac:(lia) ltac:(lia)) as (_ & ->). destruct (of_dyadic_val 6775620361267043 (-27) ltac:(lia) ltac:(lia)) as (_ & ->). destruct (of_dyadic_val 3087728802498217 (-28) ltac:(lia) ltac:(lia)) as (_ & ->).
  change (bpow radix2 26) with 67108864. change (bpow radix2 (-26)) with (/ 67108864). change (bpow radix2 (-27)) with (/ 134217728). change (bpow radix2 (-28)) with (/ 268435456). lra. Qed.
Print Assumptions C59_large_box_refuted.

(** hypotheses met: the box [-1/2, 1/2] x [0, 1], positions across the boundary; the vector is
    (-1/4, 1/4) *)
Definition c59_boxes : list (double * double) := [(of_dyadic (-1) (-1), of_dyadic 1 (-1)); (B754_zero false, fone)].
Definition c59_p1 : list double := [of_dyadic (-3) (-3); of_dyadic 7 (-3)].
Definition c59_p2 : list double := [of_dyadic 3 (-3); of_dyadic 1 (-3)].
Lemma moderate_dyadic m e : (-1074 <= e <= 0)%Z -> (Z.abs m <= 2 ^ 20)%Z -> moderate_number (of_dyadic m e).
Proof. intros He Hm. destruct (of_dyadic_val m e ltac:(lia) ltac:(lia)) as (F & V). split; [exact F|]. rewrite V, Rabs_mult, <- abs_IZR, (Rabs_pos_eq (bpow radix2 e)) by apply bpow_ge_0.
  assert (A : 0 <= IZR (Z.abs m) <= bpow radix2 20) by (split; [apply (IZR_le 0); lia|change (bpow radix2 20) with (IZR (2 ^ 20)); apply IZR_le; auto]).
  assert (Be : 0 <= bpow radix2 e <= 1) by (split; [apply bpow_ge_0|change 1 with (bpow radix2 0); apply bpow_le; lia]). nra. Qed.
Theorem C59_hypotheses_met : Forall (fun b => moderate_number (fst b) /\ moderate_number (snd b) /\ B2R (fst b) < B2R (snd b)) c59_boxes /\ Forall moderate_number c59_p1 /\ Forall moderate_number c59_p2 /\
  fconnecting_vector c59_boxes c59_p1 c59_p2 = Ok [of_dyadic (-1) (-2); of_dyadic 1 (-2)].
Proof. split; [|split; [|split]].
  - constructor; [|constructor; [|constructor]]; cbn [fst snd]; (split; [|split]).
    + apply moderate_dyadic; lia.
    + apply moderate_dyadic; lia.
    + destruct (of_dyadic_val (-1) (-1) ltac:(lia) ltac:(lia)) as (_ & ->). destruct (of_dyadic_val 1 (-1) ltac:(lia) ltac:(lia)) as (_ & ->). pose proof (bpow_gt_0 radix2 (-1)). lra.
    + split; [reflexivity|]. cbn. rewrite Rabs_R0. change (0 <= bpow radix2 20). apply bpow_ge_0.
    + apply moderate_dyadic; lia.
    + destruct fone_val as (_ & ->). cbn. lra.
  - constructor; [|constructor; [|constructor]]; apply moderate_dyadic; lia.
  - constructor; [|constructor; [|constructor]]; apply moderate_dyadic; lia.
  - assert (E : fconnecting_vector c59_boxes c59_p1 c59_p2 = Ok (per_coordinate fconnect c59_boxes c59_p1 c59_p2)) by (unfold fconnecting_vector; match goal with |- (if ?b then _ else _) = _ => assert (X : b = true) by (vm_compute; reflexivity); rewrite X end; reflexivity).
    rewrite E. cbn [per_coordinate c59_boxes c59_p1 c59_p2 combine map fst snd]. f_equal. unfold per_coordinate. cbn [combine map fst snd]. f_equal; [|f_equal]; apply B2SF_inj; vm_compute; reflexivity. Qed.
Print Assumptions C59_hypotheses_met.
